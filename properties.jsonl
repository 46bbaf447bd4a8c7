{"id": "C01", "title": "Multi-stage scenario tree is a tree", "statement": "For the robust controller, the nodes of the scenario tree generated for a horizon of N steps with n_robust branching steps and c parameter combinations form a tree: there is one root, every node at step k+1 is reached from exactly one (node, branch) pair at step k, the parent recorded for a child is the node it was created from, and step k has exactly c^min(k, n_robust) nodes.", "quantifier": "all horizons N, all n_robust, all numbers of combinations c>=1, all nodes and branches", "why_tests_cant": "number of trees is infinite and grows exponentially; an indexing slip shows only for particular (N, n_robust, c)", "anchors": ["do_mpc/optimizer.py:Optimizer._setup_scenario_tree"]}
{"id": "C02", "title": "Every uncertainty sequence occurs exactly once", "statement": "Following the tree from the root, each sequence of n_robust parameter combinations labels exactly one leaf, and after the robust horizon the combination applied along a path stays equal to the combination chosen at the last robust step.", "quantifier": "all N >= n_robust, all c>=1, all sequences of combinations and all leaves", "why_tests_cant": "exponentially many sequences; the combination index after the robust horizon is computed by a modulo that only some sizes exercise", "anchors": ["do_mpc/optimizer.py:Optimizer._setup_scenario_tree", "do_mpc/controller/_mpc.py:MPC._prepare_nlp"]}
{"id": "C03", "title": "Nominal control uses only the nominal parameters", "statement": "With n_robust = 0 the controller's tree has one node per step and every model evaluation uses parameter combination 0, whatever number of combinations was supplied; combination 0 produced by set_uncertainty_values is the tuple of first entries, and the combinations are exactly the Cartesian product of the supplied value lists, each once.", "quantifier": "all horizons, all value lists and numbers of uncertain parameters", "why_tests_cant": "ranges over all value lists and horizons", "anchors": ["do_mpc/optimizer.py:Optimizer._setup_scenario_tree", "do_mpc/controller/_mpc.py:MPC.set_uncertainty_values"]}
{"id": "C04", "title": "A predicted scenario is a root-to-leaf path of the tree", "statement": "For each scenario (column) returned by the controller's stored prediction, the states at consecutive steps belong to a node and one of its children, distinct columns end in distinct leaves and every leaf is the end of some column.", "quantifier": "all N, n_robust, c and all columns", "why_tests_cant": "wrong columns only appear at n_robust >= 3 or n_robust = N, sizes example-based tests do not use", "anchors": ["do_mpc/optimizer.py:Optimizer._setup_scenario_tree", "do_mpc/data.py:MPCData.prediction"]}
{"id": "C05", "title": "Non-anticipativity of robust inputs", "statement": "All scenarios that share a node of the tree share the same control input there: the input applied in the model equation at a node does not depend on the uncertainty realised at or after that node; with open_loop all scenarios share one input sequence.", "quantifier": "all tree sizes, nodes and branches", "why_tests_cant": "must hold for every pair of scenarios in every tree", "anchors": ["do_mpc/controller/_mpc.py:MPC._prepare_nlp"]}
{"id": "C06", "title": "Equality constraints of the MPC problem are exactly the tree dynamics", "statement": "For a discrete-time model, a point of the optimisation problem satisfies all equality constraints iff its unscaled initial state equals the given x0 and for every node and branch the child's unscaled state equals the model right-hand side evaluated at the node's unscaled state, algebraic state and input, the step's time-varying parameters and the branch's parameter combination (and all algebraic equations hold).", "quantifier": "all models, scalings, horizons, trees, points", "why_tests_cant": "quantifies over all real-valued points and all model functions", "anchors": ["do_mpc/controller/_mpc.py:MPC._prepare_nlp", "do_mpc/optimizer.py:Optimizer._setup_discretization"]}
{"id": "C07", "title": "Objective is the scenario-averaged cost", "statement": "The objective equals the sum over steps of the plain average over tree edges of the stage cost, plus the average of the terminal cost over the end nodes, plus the input-rate penalty and the slack penalty.", "quantifier": "all cost functions, trees and points", "why_tests_cant": "equality of functions on all points; weights depend on tree size", "anchors": ["do_mpc/controller/_mpc.py:MPC._prepare_nlp"]}
{"id": "C08", "title": "Bounds hold at every prediction step", "statement": "Every point within the variable bounds of the generated problem satisfies the user's lower and upper bounds on inputs at all steps, on states at the grid points of all steps 1..N-1 and the terminal bounds at step N in all scenarios; with collocation checking enabled the state bounds also hold at every collocation point.", "quantifier": "all bounds, scalings>0, horizons, trees and points", "why_tests_cant": "ranges over all points and index combinations", "anchors": ["do_mpc/controller/_mpc.py:MPC._update_bounds", "do_mpc/optimizer.py:Optimizer.lb_opt_x"]}
{"id": "C09", "title": "Nonlinear constraints are imposed at every step, softened only as declared", "statement": "A feasible point satisfies each user nonlinear constraint g<=ub at every step 0..N-1 and every scenario node with the node's input; a soft constraint may exceed ub by at most the declared maximum violation and the excess is charged with its penalty.", "quantifier": "all constraint functions, settings and points", "why_tests_cant": "all points and all setting combinations", "anchors": ["do_mpc/controller/_mpc.py:MPC._prepare_nlp", "do_mpc/optimizer.py:Optimizer._setup_nl_cons", "do_mpc/optimizer.py:Optimizer.set_nl_cons"]}
{"id": "C10", "title": "Constraint vector and its bounds are aligned", "statement": "The generated constraint vector, its lower and its upper bound vectors always have equal length, each bound entry belongs to the constraint at the same position, and the length is the number of equations implied by the model sizes, the tree and the discretisation.", "quantifier": "all model sizes, trees, discretisations and settings", "why_tests_cant": "sizes unbounded", "anchors": ["do_mpc/controller/_mpc.py:MPC._prepare_nlp"]}
{"id": "C11", "title": "Scaling does not change the solved problem", "statement": "The set of unscaled feasible points (dynamics, bounds) of the controller is independent of the chosen positive scaling factors.", "quantifier": "all positive scalings, all models, bounds and points", "why_tests_cant": "ranges over all real scalings", "anchors": ["do_mpc/controller/_mpc.py:MPC._prepare_nlp", "do_mpc/optimizer.py:Optimizer.lb_opt_x"]}
{"id": "C12", "title": "Orthogonal collocation is exact on polynomials", "statement": "The collocation coefficients built from any distinct collocation points differentiate, at each collocation point, and extrapolate to the end of the element, exactly every polynomial of degree at most the collocation degree.", "quantifier": "all degrees, all distinct point sets, all polynomials", "why_tests_cant": "quantifies over all polynomials and degrees", "anchors": ["do_mpc/optimizer.py:Optimizer._setup_discretization"]}
{"id": "C13", "title": "Collocation layout uses every variable exactly once", "statement": "In a collocated step every state/algebraic collocation variable offered to the optimiser is used for exactly one collocation point of exactly one finite element, successive elements are linked by one continuity condition, and the number of equations equals the number of collocation variables.", "quantifier": "all degrees, numbers of finite elements and model sizes", "why_tests_cant": "sizes unbounded", "anchors": ["do_mpc/optimizer.py:Optimizer._setup_discretization"]}
{"id": "C14", "title": "MPC step protocol", "statement": "In any history of accepted calls, make_step(x0) returns the first unscaled input of the newly solved problem, which is solved for initial state x0, the parameters/tvp evaluated at the current time and the previously applied input, and afterwards time has advanced by t_step and exactly one row was appended to every stored field.", "quantifier": "all histories of make_step calls and all solver results", "why_tests_cant": "needs an invariant over unbounded call histories", "anchors": ["do_mpc/controller/_mpc.py:MPC.make_step", "do_mpc/optimizer.py:Optimizer.solve"]}
{"id": "C15", "title": "Setup checks are complete and ordered", "statement": "setup of a controller succeeds if and only if sampling time, horizon and objective are given, tvp- and p-functions are given when the model has such parameters, no lower bound is above its upper bound, and no slack symbols are left over from an earlier attempt (the rate penalty is optional); no make_step is possible before a successful setup.", "quantifier": "all configurations of declarations and all call sequences", "why_tests_cant": "exponentially many configurations and orders", "anchors": ["do_mpc/controller/_mpc.py:MPC._check_validity", "do_mpc/controller/_mpc.py:MPC.setup", "do_mpc/optimizer.py:Optimizer.prepare_nlp", "do_mpc/optimizer.py:Optimizer.create_nlp"]}
{"id": "C16", "title": "Configuration is frozen after setup", "statement": "After setup, calls that change the problem definition (variables, right-hand sides, objective, constraints, functions, settings via set_param) are rejected and leave the object unchanged; bounds may still be changed and take effect on the next solve.", "quantifier": "all call histories", "why_tests_cant": "needs quantification over all call sequences", "anchors": ["do_mpc/controller/_mpc.py:MPC", "do_mpc/optimizer.py:Optimizer"]}
{"id": "C17", "title": "Terminal bounds read back what was set", "statement": "Reading a terminal bound returns the value last set for it.", "quantifier": "all states and values", "why_tests_cant": "read-back law over all values and histories", "anchors": ["do_mpc/controller/_mpc.py:MPC.terminal_bounds"]}
{"id": "C18", "title": "Bounds and scaling read back and are independent per variable", "statement": "Setting a bound (lower/upper, variable) makes exactly that bound read back as set and changes no other bound; the same holds for scaling factors before setup.", "quantifier": "all keys, values and histories", "why_tests_cant": "frame condition over all other keys", "anchors": ["do_mpc/optimizer.py:Optimizer.bounds", "do_mpc/optimizer.py:Optimizer.scaling"]}
{"id": "C19", "title": "Moving horizon window contains the most recent measurements", "statement": "At each step, with the default measurement source, the estimator uses the last N measurements in chronological order; while fewer than N have been recorded the earliest positions repeat the oldest measurement and the newest measurement is always last.", "quantifier": "all horizons and all measurement histories", "why_tests_cant": "history length unbounded; error at the fill-up boundary", "anchors": ["do_mpc/estimator/_mhe.py:MHE._check_validity"]}
{"id": "C20", "title": "Estimated and set parameters together form the model parameters", "statement": "For any choice of estimated parameters, each model parameter takes its value from exactly one source: the estimate if it is in the list, otherwise the user's parameter function, in the model's order.", "quantifier": "all parameter lists and subsets", "why_tests_cant": "all subsets of all parameter lists", "anchors": ["do_mpc/estimator/_mhe.py:MHE.__init__"]}
{"id": "C21", "title": "MHE step protocol", "statement": "In any history, each make_step(y) appends exactly one row to every stored field, advances time by t_step, returns the unscaled last state of the newly solved problem, and uses as arrival-cost reference the unscaled second state of the previous solution.", "quantifier": "all histories and solver results", "why_tests_cant": "unbounded histories", "anchors": ["do_mpc/estimator/_mhe.py:MHE.make_step"]}
{"id": "C22", "title": "State bounds constrain the returned estimate", "statement": "Every point within the variable bounds of the estimation problem satisfies the user's state bounds at every time point of the window, in particular at the returned current estimate.", "quantifier": "all bounds, horizons and points", "why_tests_cant": "ranges over all points", "anchors": ["do_mpc/estimator/_mhe.py:MHE._update_bounds"]}
{"id": "C23", "title": "MHE equality constraints are exactly the dynamics plus measurement equation", "statement": "For a discrete-time model, a point satisfies all equality constraints iff for each window step the next unscaled state equals the model with process noise and the measured value equals the measurement function plus measurement noise.", "quantifier": "all models, scalings, horizons, points", "why_tests_cant": "all real points", "anchors": ["do_mpc/estimator/_mhe.py:MHE._prepare_nlp"]}
{"id": "C24", "title": "Recorded history is append-only and complete", "statement": "The stored trajectory of each field is exactly the sequence of values recorded since the last reset, in order; recording one field never changes another; rejected updates of unknown fields are reported.", "quantifier": "all sequences of updates and resets", "why_tests_cant": "unbounded sequences", "anchors": ["do_mpc/data.py:Data.update", "do_mpc/data.py:Data.init_storage"]}
{"id": "C25", "title": "Querying recorded data is pure and cache-transparent", "statement": "A power-index query of the recorded data returns the columns of the current stored data belonging to that index, regardless of earlier queries, updates and resets.", "quantifier": "all histories of queries and updates", "why_tests_cant": "depends on interplay cache/history", "anchors": ["do_mpc/data.py:Data.__getitem__", "do_mpc/data.py:MPCData.prediction"]}
{"id": "C26", "title": "Saving results never destroys existing results unless asked to", "statement": "With overwrite=False, saving results creates a new file and leaves the contents of every existing file unchanged; loading the saved file gives the saved data for each kind of module saved.", "quantifier": "all directory contents and names", "why_tests_cant": "all file-system states", "anchors": ["do_mpc/data.py:save_results", "do_mpc/data.py:load_results", "do_mpc/tools/__init__.py:save_pickle"]}
{"id": "C27", "title": "Power-indexed structure behaves as an insertion-ordered map", "statement": "For any sequence of assignments, reading a full index gives the most recently assigned value, other entries are unaffected, and entries are listed in first-assignment order.", "quantifier": "all sequences of assignments", "why_tests_cant": "unbounded sequences", "anchors": ["do_mpc/tools/_structure.py:Structure"]}
{"id": "C28", "title": "Partial power indices select exactly the matching entries", "statement": "Reading a partial index returns exactly the values of all entries whose index starts with it, in order, and never fails because entries of other index lengths exist.", "quantifier": "all structures and indices", "why_tests_cant": "arbitrary nesting", "anchors": ["do_mpc/tools/_structure.py:Structure._select"]}
{"id": "C29", "title": "Sampling plan: cases are complete, valid and uniquely identified", "statement": "After any sequence of planner calls, every case assigns a value to every sampling variable, ids are pairwise distinct, cases appear in call order, and a rejected call leaves the plan unchanged.", "quantifier": "all call sequences", "why_tests_cant": "unbounded call sequences", "anchors": ["do_mpc/sampling/_samplingplanner.py:SamplingPlanner"]}
{"id": "C30", "title": "Grid sampling enumerates the full Cartesian product once", "statement": "product(...) adds one case for each element of the Cartesian product of the supplied value lists, each exactly once.", "quantifier": "all value lists", "why_tests_cant": "exponential combinations", "anchors": ["do_mpc/sampling/_samplingplanner.py:SamplingPlanner.product"]}
{"id": "C31", "title": "Interrupted sampling can be resumed without loss or recomputation", "statement": "If sampling is interrupted after any number of samples and restarted with overwrite=False, every already written result is kept untouched and not recomputed, and when the restart finishes each case of the plan has a result file holding the value of the sample function on that case.", "quantifier": "all crash points, plans, initial directories", "why_tests_cant": "every crash point", "anchors": ["do_mpc/sampling/_sampler.py:Sampler.sample_data", "do_mpc/sampling/_sampler.py:Sampler.sample_idx"]}
{"id": "C32", "title": "Sampling order independence", "statement": "Sampling the individual cases by index, in any order and with repetitions covering all indices, yields the same result files as sampling all data at once.", "quantifier": "all index sequences covering the plan", "why_tests_cant": "all permutations", "anchors": ["do_mpc/sampling/_sampler.py:Sampler.sample_idx"]}
{"id": "C33", "title": "Index check of single-sample evaluation", "statement": "Sampling case i is accepted iff 0 <= i < number of cases; an out of range index is rejected with the documented assertion and changes nothing.", "quantifier": "all plans and indices", "why_tests_cant": "boundary for all plan sizes", "anchors": ["do_mpc/sampling/_sampler.py:Sampler.sample_idx"]}
{"id": "C34", "title": "Data handler returns the current results", "statement": "Indexing/filtering the data handler returns for each selected case its id, its plan values and the result stored on disk post-processed by every registered function, and None where the result does not exist.", "quantifier": "all plans, directories, registered functions, query histories", "why_tests_cant": "depends on history through lazy loading", "anchors": ["do_mpc/sampling/_datahandler.py:DataHandler"]}
{"id": "C35", "title": "Filter selects exactly the matching cases", "statement": "filter returns exactly the cases satisfying all input filters (and output filters), in plan order.", "quantifier": "all plans and predicates", "why_tests_cant": "all predicates", "anchors": ["do_mpc/sampling/_datahandler.py:DataHandler.filter"]}
{"id": "C36", "title": "Variable declaration protocol", "statement": "Any sequence of declarations yields a model whose variables of each kind are exactly those declared, in order, with no duplicates; duplicate or reserved names are rejected and every documented variable type name is accepted.", "quantifier": "all declaration sequences", "why_tests_cant": "unbounded sequences", "anchors": ["do_mpc/model/_model.py:Model.set_variable"]}
{"id": "C37", "title": "Model setup requires exactly one right-hand side per state", "statement": "setup succeeds only if each declared state has a right-hand side and the number of algebraic equations equals the number of algebraic states; the assembled right-hand side lists, in state order, the expression last set for each state.", "quantifier": "all declaration/equation sequences", "why_tests_cant": "unbounded sequences", "anchors": ["do_mpc/model/_model.py:Model.setup", "do_mpc/model/_model.py:Model.set_rhs"]}
{"id": "C38", "title": "Setup freezes the model", "statement": "After setup every declaring call is rejected and the model is unchanged; before setup model functions are not available.", "quantifier": "all call sequences", "why_tests_cant": "all call sequences", "anchors": ["do_mpc/model/_model.py:Model"]}
{"id": "C39", "title": "Simulator trajectory is the iterate of the model", "statement": "After any history (settings not changed after setup) followed by any sequence of steps with inputs u_0..u_{n-1}, none of the steps raises and the simulator state is the n-fold composition of the one-step map with process noise, inputs, and parameters/tvp evaluated at t0+k*t_step, and the recorded rows are the states before each step with their inputs and times.", "quantifier": "all histories", "why_tests_cant": "unbounded history", "anchors": ["do_mpc/simulator.py:Simulator.make_step", "do_mpc/simulator.py:Simulator.simulate"]}
{"id": "C40", "title": "Simulator history lengths and times", "statement": "After n steps since the last reset every recorded field has n rows, row k's time is t0 + k t_step; reset empties all fields and restarts time at 0 without changing the state.", "quantifier": "all histories with resets", "why_tests_cant": "unbounded history", "anchors": ["do_mpc/simulator.py:Simulator.make_step", "do_mpc/simulator.py:Simulator.reset_history"]}
{"id": "C41", "title": "Closed loop consistency", "statement": "In the standard loop controller -> simulator -> state feedback, at each step the controller's recorded state, the simulator's recorded state and their recorded inputs and times coincide row by row.", "quantifier": "all loop lengths, controllers, models", "why_tests_cant": "unbounded loop", "anchors": ["do_mpc/controller/_mpc.py:MPC.make_step", "do_mpc/simulator.py:Simulator.make_step", "do_mpc/estimator/_base.py:StateFeedback.make_step"]}
{"id": "C42", "title": "Finite-horizon LQR gain is optimal", "statement": "For discrete linear dynamics, symmetric positive semidefinite Q,P and positive definite R, the gains generated by the backward recursion minimise the quadratic cost over the horizon: no input sequence has lower cost from any initial state, and the gain returned by the controller is the first-step optimal gain.", "quantifier": "all matrices, horizons, states and input sequences", "why_tests_cant": "uncountable input sequences", "anchors": ["do_mpc/controller/_lqr.py:LQR.discrete_gain"]}
{"id": "C43", "title": "Infinite-horizon LQR fixed point", "statement": "If the algebraic Riccati equation is solved, applying one backward step to the solution gives the same gain, and the finite-horizon controller with that terminal weight returns this gain for every horizon.", "quantifier": "all matrices and horizons", "why_tests_cant": "all horizons", "anchors": ["do_mpc/controller/_lqr.py:LQR.discrete_gain"]}
{"id": "C44", "title": "LQR set-point tracking is consistent", "statement": "With a steady state (xss,uss) of the model the controller returns uss at xss; in input-rate mode the closed loop is at rest at xss with u_prev=uss; setting the set-point repeatedly keeps the controller usable.", "quantifier": "all models, gains, call sequences", "why_tests_cant": "all histories", "anchors": ["do_mpc/controller/_lqr.py:LQR.make_step", "do_mpc/controller/_lqr.py:LQR.set_setpoint"]}
{"id": "C45", "title": "Input-rate formulation is the same system", "statement": "The augmented system used for rate penalisation reproduces the original dynamics: for every input sequence, the augmented trajectory's first block is the original state and its second block the previous input.", "quantifier": "all matrices, states, input sequences", "why_tests_cant": "all sequences", "anchors": ["do_mpc/controller/_lqr.py:LQR.setup", "do_mpc/model/_linearmodel.py:LinearModel"]}
{"id": "C46", "title": "Discretised linear model and measurement", "statement": "Discretising a linear model keeps its measurement equation including feed-through.", "quantifier": "all A,B,C,D", "why_tests_cant": "all matrices", "anchors": ["do_mpc/model/_linearmodel.py:LinearModel.discretize"]}
{"id": "C47", "title": "Steady state helper", "statement": "For a discrete model get_steady_state returns, for a given input, the state xss with xss = A xss + B uss whenever exactly one exists, and for a given state an input making it steady; if there is none it raises.", "quantifier": "all matrices", "why_tests_cant": "all matrices", "anchors": ["do_mpc/model/_linearmodel.py:LinearModel.get_steady_state"]}
{"id": "C48", "title": "DAE to ODE conversion keeps inputs", "statement": "The ODE model obtained from a DAE model has the old states, algebraic states and inputs as states, with the rate of each input component being the corresponding new input component; solutions of the new model keep the algebraic equations satisfied.", "quantifier": "all models incl. vector-valued inputs", "why_tests_cant": "all shapes", "anchors": ["do_mpc/model/_dae2odeconversion.py:dae2odeconversion"]}
{"id": "C49", "title": "Active set detection partitions constraints", "statement": "Each constraint and each variable bound is classified as active or inactive, never both, and exactly according to whether its value is within the tolerance of one of its finite bounds; an equality constraint met up to the tolerance is active.", "quantifier": "all solutions, bounds and tolerances", "why_tests_cant": "all real vectors", "anchors": ["do_mpc/differentiator/_nlpdifferentiator.py:NLPDifferentiator"]}
{"id": "C50", "title": "Reduction and re-expansion of sensitivities", "statement": "Sensitivities of variables and multipliers are put back at their original positions; rows/columns of variables that do not enter the problem and of inactive multipliers are zero.", "quantifier": "all index sets and matrices", "why_tests_cant": "all subsets", "anchors": ["do_mpc/differentiator/_nlpdifferentiator.py:NLPDifferentiator._map_param_sens_to_full", "do_mpc/differentiator/_nlpdifferentiator.py:NLPDifferentiator._map_dlamdp"]}
{"id": "C51", "title": "OPC UA namespace registration", "statement": "Registering a client's namespace gives each of its variables a distinct node, a read of a tag returns the values last written to it in order, and sizes must match; registering twice does not rename.", "quantifier": "all namespaces and write/read sequences", "why_tests_cant": "all sequences", "anchors": ["do_mpc/opcua/_server.py", "do_mpc/opcua/_client.py", "do_mpc/opcua/_helper.py"]}
{"id": "C52", "title": "Real-time trigger: steps of one client never overlap and stop is final", "statement": "For any schedule of timer firings, step durations and start/stop requests, a client's asynchronous steps do not overlap and after stop no further step starts.", "quantifier": "all schedules", "why_tests_cant": "all interleavings", "anchors": ["do_mpc/opcua/_base.py"]}
{"id": "C53", "title": "Plotted result lines show exactly the recorded data", "statement": "After adding lines and plotting results, each line added shows the whole recorded trajectory (or the prefix up to t_ind) of its variable.", "quantifier": "all sequences of add_line and plot calls", "why_tests_cant": "all sequences", "anchors": ["do_mpc/graphics.py:Graphics"]}
{"id": "C54", "title": "Animation export does not overwrite existing files", "statement": "With overwrite=False exporting an animation leaves existing files unchanged.", "quantifier": "all directory contents", "why_tests_cant": "all file-system states", "anchors": ["do_mpc/graphics.py:animate"]}
{"id": "C55", "title": "ONNX conversion evaluates the graph", "statement": "For a topologically ordered ONNX graph, conversion assigns to each node the value of its operation applied to the values of its inputs, inputs with wrong names or shapes are rejected, and a failing conversion leaves earlier results queryable.", "quantifier": "all graphs and inputs", "why_tests_cant": "all graphs", "anchors": ["do_mpc/sysid/_onnxconversion.py:ONNXConversion.convert"]}
{"id": "C56", "title": "Timer statistics", "statement": "For any sequence of tic/toc calls the recorded durations are the differences between each toc and the latest tic, in order.", "quantifier": "all call sequences and clocks", "why_tests_cant": "all clocks", "anchors": ["do_mpc/tools/_timer.py:Timer"]}
{"id": "C57", "title": "Per-object settings", "statement": "Changing bounds, scaling or settings on one controller/simulator object does not change another object's.", "quantifier": "all pairs of objects and call sequences", "why_tests_cant": "aliasing appears only in particular interleavings", "anchors": ["do_mpc/tools/_indexedproperty.py:IndexedProperty", "do_mpc/simulator.py:ContinousSimulatorSettings"]}
{"id": "C58", "title": "Rate penalty is charged on physical input changes", "statement": "The default input-rate penalty equals sum r*(u_k-u_(k-1))^2 of the physical inputs, with u_prev the previously applied input at step 0, independently of the chosen scaling.", "quantifier": "all scalings, factors, points", "why_tests_cant": "quantifies over all real scalings and points", "anchors": ["do_mpc/controller/_mpc.py:MPC._prepare_nlp", "do_mpc/controller/_mpc.py:MPC.set_rterm"]}
{"id": "C59", "title": "A failed model setup can be corrected", "statement": "If setup of a model raises, the model is still open: the calls that were accepted before (adding measurements, expressions, ...) are still accepted, so that the user can complete the model and call setup again.", "quantifier": "all declaration sequences", "why_tests_cant": "the state after a failure differs per failure point", "anchors": ["do_mpc/model/_model.py:Model.setup"]}
{"id": "C60", "title": "Initial values are independent per object", "statement": "Assigning the same initial state to controller, estimator and simulator and then stepping one of them does not change the initial state of the others.", "quantifier": "all objects, all assignments and all step sequences", "why_tests_cant": "aliasing appears only for structure arguments and particular interleavings", "anchors": ["do_mpc/model/_iteratedvariables.py:IteratedVariables._convert2struct", "do_mpc/simulator.py:Simulator.make_step"]}
{"id": "C61", "title": "Recorded simulator rows are self-consistent", "statement": "In every row recorded by the simulator the auxiliary value is the auxiliary expression evaluated at that row's own state, input, algebraic state and parameters, and the algebraic state solves the algebraic equations for that row.", "quantifier": "all histories and models", "why_tests_cant": "depends on how inputs change between steps", "anchors": ["do_mpc/simulator.py:Simulator.make_step", "do_mpc/simulator.py:Simulator.simulate"]}
{"id": "C63", "title": "Setters of current values", "statement": "Setting x0, u0, z0 accepts exactly arrays with as many entries as the model's vector and then reads back what was set, leaving the other values alone; t0 accepts any number or one-element array of the documented types; structures of another layout are refused.", "quantifier": "all objects and values", "why_tests_cant": "all sizes and types of values", "anchors": ["do_mpc/model/_iteratedvariables.py:IteratedVariables"]}
{"id": "C62", "title": "Setup can be repeated", "statement": "setup can be called again (also after a failed attempt) and simply overwrites the previous optimization problem: it succeeds whenever the configuration is valid, empties the history and starts from a fresh initial guess, keeping time, state and input.", "quantifier": "all configurations and all call histories", "why_tests_cant": "depends on leftovers of earlier attempts", "anchors": ["do_mpc/controller/_mpc.py:MPC.setup", "do_mpc/optimizer.py:Optimizer._setup_nl_cons"]}
{"id": "C64", "title": "Recorded state rows of the estimator", "statement": "The row an estimator step records for the state is the estimate that step returned.", "quantifier": "all histories", "why_tests_cant": "unbounded histories", "anchors": ["do_mpc/estimator/_mhe.py:MHE.make_step"]}
{"id": "C65", "title": "Nonlinear constraints hold on the estimate", "statement": "Every feasible point of the estimation problem satisfies the user's nonlinear constraints (up to the declared slack) at every state of the window, in particular at the returned estimate.", "quantifier": "all constraints, horizons, scalings and points", "why_tests_cant": "ranges over all real points", "anchors": ["do_mpc/estimator/_mhe.py:MHE._prepare_nlp"]}
{"id": "C66", "title": "The estimation objective is the one the user set", "statement": "The objective of the estimation problem is the arrival cost of the first state and the estimated parameters against the previous ones, plus the stage costs of the noise of every window step, plus the slack penalties, all in physical units; set_default_objective gives weighted squares and refuses matrices of the wrong size.", "quantifier": "all costs, horizons, scalings and points", "why_tests_cant": "ranges over all real points", "anchors": ["do_mpc/estimator/_mhe.py:MHE._prepare_nlp", "do_mpc/estimator/_mhe.py:MHE.set_objective", "do_mpc/estimator/_mhe.py:MHE.set_default_objective"]}
{"id": "C67", "title": "Noise-free data are explained exactly", "statement": "If a full window of measurements was produced by the (discrete-time) model without noise and the previous estimates were right, the true trajectory is an optimal solution of the estimation problem with the default objective, and the state returned for it is the true state.", "quantifier": "all models, horizons, trajectories and weights", "why_tests_cant": "an optimality statement over all points", "anchors": ["do_mpc/estimator/_mhe.py:MHE._prepare_nlp", "do_mpc/estimator/_mhe.py:MHE.set_default_objective"]}
{"id": "C68", "title": "Linearisation gives the Jacobian system", "statement": "Linearising a model without algebraic states at a point gives a linear model of the same kind whose matrices are the Jacobians of the model at that point, including its measurement equation with feed-through.", "quantifier": "all models, points and measurement equations", "why_tests_cant": "all matrices and shapes", "anchors": ["do_mpc/model/_linearize.py:linearize", "do_mpc/model/_linearmodel.py:LinearModel.setup"]}
{"id": "C69", "title": "Matrices of a linear model", "statement": "After any sequence of calls the matrices sys_A, sys_B, sys_C, sys_D of a set-up linear model are those of its right-hand side and measurement equation; a setup that raised can be repeated with corrected arguments.", "quantifier": "all call sequences and matrices", "why_tests_cant": "all matrices and all call histories", "anchors": ["do_mpc/model/_linearmodel.py:LinearModel.setup", "do_mpc/model/_model.py:Model.get_linear_system_matrices"]}
{"id": "C70", "title": "Documented settings of the differentiator can be used", "statement": "Every documented combination of settings, in particular set_lam_zero=True, lets differentiate return sensitivities for a valid solution.", "quantifier": "all problems, solutions and settings", "why_tests_cant": "all combinations of settings with all problems", "anchors": ["do_mpc/differentiator/_nlpdifferentiator.py:NLPDifferentiator._extract_active_primal_dual_solution", "do_mpc/differentiator/helper.py:NLPDifferentiatorSettings"]}
{"id": "C71", "title": "Returned matrices are the parametric sensitivities", "statement": "If differentiate succeeds with reported residual zero, the returned dx_dp and dlam_dp have the documented shapes and for every parameter direction keep the optimality conditions of the user's problem valid to first order (with the active set fixed); with reported full rank they are the only such matrices for variables that enter the problem; the do-mpc variant returns them in physical units.", "quantifier": "all problems, solutions, parameters, linear solvers and directions", "why_tests_cant": "an analytic statement about all smooth problems", "anchors": ["do_mpc/differentiator/_nlpdifferentiator.py:NLPDifferentiator.differentiate", "do_mpc/differentiator/_nlpdifferentiator.py:DoMPCDifferentiator.differentiate"]}
{"id": "C72", "title": "Status flags of the differentiator are truthful", "statement": "After a successful call LICQ is true exactly if the gradients of the active constraints and bounds are linearly independent, SC exactly if every active multiplier is at least the tolerance in absolute value, and without a solved linear system no sensitivity is reported as a number.", "quantifier": "all problems, solutions and settings", "why_tests_cant": "linear-algebra statement over all matrices", "anchors": ["do_mpc/differentiator/helper.py:NLPDifferentiatorStatus", "do_mpc/differentiator/_nlpdifferentiator.py:NLPDifferentiator._check_LICQ", "do_mpc/differentiator/_nlpdifferentiator.py:NLPDifferentiator._check_SC"]}
{"id": "C73", "title": "Arguments of differentiate are checked", "statement": "A parameter vector of the wrong length is refused, and a problem with one parameter is handled by every documented linear solver.", "quantifier": "all problems and parameter vectors", "why_tests_cant": "all sizes", "anchors": ["do_mpc/differentiator/_nlpdifferentiator.py:NLPDifferentiator.differentiate", "do_mpc/differentiator/_nlpdifferentiator.py:NLPDifferentiator._solve_linear_system"]}
{"id": "C74", "title": "ONNX operations compute the standard's values", "statement": "The operations offered by the converter (activations, element-wise arithmetic with broadcasting, MatMul, Gemm, Concat, Slice, Reshape, Sum) give the values the ONNX standard prescribes for all arguments and attributes.", "quantifier": "all matrices and attributes", "why_tests_cant": "all real matrices, sizes and attribute combinations", "anchors": ["do_mpc/sysid/_onnxconversion.py:ONNXOperations"]}
{"id": "C75", "title": "Bounds in force at every solve", "statement": "At every step the bounds handed to the solver are, for every element of every variable, those assigned last; the terminal state has the terminal bounds given, or the state bounds if none were given on that side and terminal bounds are in use; reading a bound returns the value assigned last.", "quantifier": "all histories of calls, all power indices, all values", "why_tests_cant": "bounds are stored in several structures connected by references, and all interleavings of assignments with setup matter", "anchors": ["do_mpc/optimizer.py:Optimizer.bounds", "do_mpc/optimizer.py:Optimizer._update_bounds", "do_mpc/controller/_mpc.py:MPC.terminal_bounds", "do_mpc/controller/_mpc.py:MPC._check_validity"]}
{"id": "C76", "title": "Setup of simulator and estimator is accepted exactly when complete", "statement": "Simulator.setup and MHE.setup return normally exactly when the sampling time (and horizon), the objective, a measurement source and every function the model needs were given and no lower bound exceeds its upper bound; a refused setup leaves state, clock, data and the problem being solved alone, so that the user can complete the configuration and try again.", "quantifier": "all histories of calls", "why_tests_cant": "all orders of configuring calls, including repeated and failed setups", "anchors": ["do_mpc/simulator.py:Simulator.setup", "do_mpc/simulator.py:Simulator._check_validity", "do_mpc/estimator/_mhe.py:MHE.setup", "do_mpc/estimator/_mhe.py:MHE._check_validity"]}
{"id": "C77", "title": "Custom cost and constraint terms are solved", "statement": "Terms added to nlp_obj and blocks of constraints appended (with their bounds) to nlp_cons, nlp_cons_lb and nlp_cons_ub between prepare_nlp and create_nlp are part of every later solve, together with the objective and the constraints of the ordinary problem; bounds of the constraints assigned afterwards replace the previous ones; before prepare_nlp every access is refused and after create_nlp changes of objective and constraints are refused, without effect.", "quantifier": "all problems, added expressions, points, parameters and histories of calls around prepare_nlp and create_nlp", "why_tests_cant": "all orders of calls and all added expressions", "anchors": ["do_mpc/optimizer.py:Optimizer.nlp_obj", "do_mpc/optimizer.py:Optimizer.nlp_cons", "do_mpc/optimizer.py:Optimizer.nlp_cons_lb", "do_mpc/optimizer.py:Optimizer.nlp_cons_ub", "do_mpc/optimizer.py:Optimizer.prepare_nlp", "do_mpc/optimizer.py:Optimizer.create_nlp", "do_mpc/optimizer.py:Optimizer.solve"]}
{"id": "C78", "title": "Custom bounds on single optimisation variables", "statement": "A bound assigned through lb_opt_x or ub_opt_x is given in physical units: at every later solve a value is admissible exactly if its physical value meets the bound assigned last; reading it back returns what was assigned and other assignments do not change it.", "quantifier": "all histories of assignments to bounds, lb_opt_x and ub_opt_x, all scalings and values", "why_tests_cant": "all interleavings of three ways of assigning bounds, all scalings", "anchors": ["do_mpc/optimizer.py:Optimizer.lb_opt_x", "do_mpc/optimizer.py:Optimizer.ub_opt_x", "do_mpc/optimizer.py:Optimizer.bounds", "do_mpc/controller/_mpc.py:MPC._update_bounds"]}
{"id": "C79", "title": "Repeated setup solves the new problem", "statement": "setup can be called again after changing the configuration and simply overwrites the previous problem: the next solve is that of the new configuration; compile_nlp replaces the solver by a compiled one.", "quantifier": "all histories of configuration changes, setups and solves", "why_tests_cant": "all histories of configuration changes, including changes of size", "anchors": ["do_mpc/controller/_mpc.py:MPC.setup", "do_mpc/estimator/_mhe.py:MHE.setup", "do_mpc/optimizer.py:Optimizer.solve", "do_mpc/optimizer.py:Optimizer.compile_nlp"]}
{"id": "C80", "title": "The robust plan respects the constraints under every realisation of the uncertain parameters", "statement": "If the controller's optimisation problem is feasible then for a discrete-time model the returned input is the first move of a plan (what to do after the parameter values seen so far) under which the model, started at the measured state, respects the input, state, terminal and algebraic bounds and the nonlinear constraints (soft ones up to their slack) over the whole horizon, whatever sequence of the given uncertainty values occurs in the robust horizon (and stays constant after it).", "quantifier": "all models, constraints, horizons and robust horizons, all tables of uncertainty values, all feasible points, all sequences of uncertainty values", "why_tests_cant": "the number of realisations grows exponentially with the robust horizon; a test looks at one problem and one realisation", "anchors": ["do_mpc/controller/_mpc.py:MPC._prepare_nlp", "do_mpc/optimizer.py:Optimizer._setup_scenario_tree"]}
{"id": "C81", "title": "The closed loop respects the configured constraints while the solver succeeds", "statement": "Run the loop u = mpc.make_step(x); x = simulator.make_step(u) on any controller and simulator that were set up for the same discrete-time model with the same clock, the simulator's parameters being at each time one of the controller's combinations. The loop does not raise, and in every step in which the solver returned a feasible point the applied input, the next recorded state (also the algebraic states, and the nonlinear constraints up to their slack) meet the bounds that were assigned last through the bounds, terminal_bounds and set_nl_cons interfaces, in physical units whatever the scaling.", "quantifier": "all models, all histories of API calls of both objects, all numbers of steps, all scalings and parameter sequences", "why_tests_cant": "couples three classes over unbounded histories; tests run one configuration for a few steps", "anchors": ["do_mpc/controller/_mpc.py:MPC.make_step", "do_mpc/simulator.py:Simulator.make_step", "do_mpc/controller/_mpc.py:MPC._prepare_nlp", "do_mpc/controller/_mpc.py:MPC._update_bounds"]}
{"id": "C82", "title": "The functions of a model compute the user's equations", "statement": "After any sequence of set_variable, set_expression, set_meas, set_rhs and set_alg and a successful setup, the functions the other classes evaluate (right-hand side, algebraic equations, auxiliary expressions, measurements), called with numbers for the variables in the order of declaration, return the values of the user's expressions (plus the noise variables that were asked for), although setup has replaced every symbol by an entry of the new structures. The same holds of the expressions model.aux, model.y.. read after setup.", "quantifier": "all histories of declarations, all expressions, all values, SX and MX", "why_tests_cant": "all expression trees over all sets of variables; symbol replacement order matters", "anchors": ["do_mpc/model/_model.py:Model.setup", "do_mpc/model/_model.py:Model._substitute_struct_vars"]}
{"id": "C83", "title": "setup accepts exactly the equations over declared variables", "statement": "setup raises if an equation that is in use mentions something that is not a declared variable the equation may depend on (a symbol of another model, measurement noise in a right-hand side, process noise in a measurement, any noise in an auxiliary expression), and under the conditions of C37 succeeds otherwise.", "quantifier": "all histories and expressions", "why_tests_cant": "all expressions, all declaration histories", "anchors": ["do_mpc/model/_model.py:Model.setup"]}
{"id": "C84", "title": "Symbols obtained before setup can be used after it", "statement": "What the user obtained from the model while building it (the variables returned by set_variable, entries of model.x, expressions returned by set_expression) can be used after setup, for example in objectives and constraints.", "quantifier": "all histories and expressions", "why_tests_cant": "object identity across setup for every variable and expression", "anchors": ["do_mpc/model/_model.py:Model._substitute_exported_vars", "do_mpc/model/_model.py:Model._getvar"]}
{"id": "C85", "title": "Pickled models are the same models", "statement": "A model with SX variables that is set up can be pickled and read back any number of times: same variables, functions and structure of expressions, the expressions are over the new model's own symbols and have the same values. Models with MX variables and models that are not set up are refused.", "quantifier": "all models, all numbers of round trips, all values", "why_tests_cant": "all expressions and unbounded round trips", "anchors": ["do_mpc/model/_model.py:Model.__getstate__", "do_mpc/model/_model.py:Model.__setstate__"]}
{"id": "C86", "title": "Indexing a model returns its attributes", "statement": "model['x'] is model.x and model['x','u',...] is the list of the attributes in the order of the names, for every documented attribute; anything else is refused.", "quantifier": "all tuples of names", "why_tests_cant": "all tuples of names", "anchors": ["do_mpc/model/_model.py:Model.__getitem__"]}
{"id": "C87", "title": "default_plot shows every variable on its own axis", "statement": "default_plot draws one axis per variable, for all states, algebraic states, inputs and auxiliary expressions of the model or for the given subset of each kind, in that order and labelled with the name; every axis carries the lines of its variable, each showing the recorded values of one element against time. Names that do not exist are refused.", "quantifier": "all models, recorded data and subsets of variables", "why_tests_cant": "all subsets of names and all data", "anchors": ["do_mpc/graphics.py:default_plot"]}
{"id": "C88", "title": "Sensitivities read from a controller belong to its last solve", "statement": "DoMPCDifferentiator(mpc).differentiate() returns (and sens_num holds) the derivatives, in physical units, of the solution found by the last make_step with respect to the parameters it was solved for, with the active set of the bounds the solver was given. Before setup no differentiator can be made and before the first solve differentiate raises; a failed call keeps sens_num.", "quantifier": "all problems, scalings, solvers, settings and histories of setup, bounds, initial guesses, make_step and differentiate", "why_tests_cant": "all interleavings of calls on two coupled objects", "anchors": ["do_mpc/differentiator/_nlpdifferentiator.py:DoMPCDifferentiator", "do_mpc/optimizer.py:Optimizer.solve"]}
{"id": "C89", "title": "The controller's problem is solvable exactly if a robust plan exists", "statement": "For a discrete-time model the optimisation problem of the controller has a feasible point with first input u0 if and only if there is a plan (an input for every sequence of uncertainty values seen so far, one input sequence if open_loop) starting with u0 under which the model, started at the measured state, respects input, state, terminal and algebraic bounds and the nonlinear constraints (soft ones up to their maximum violation) over the whole horizon for every sequence of uncertainty values the robust horizon allows. So nothing of the problem's encoding (tree, scaling, slack variables, bounds on unused variables) makes it harder or easier than the control problem.", "quantifier": "all models, constraints, bounds, scalings, horizons, robust horizons, tables of uncertainty values, measured states and first inputs", "why_tests_cant": "both directions over all problems; a test can find a point for one problem but cannot show that none is lost", "anchors": ["do_mpc/controller/_mpc.py:MPC._prepare_nlp", "do_mpc/controller/_mpc.py:MPC._update_bounds", "do_mpc/optimizer.py:Optimizer._setup_scenario_tree"]}
{"id": "C90", "title": "Recursive feasibility", "statement": "If the terminal bounds are robustly control invariant and lie in the state bounds, the preview of the time-varying parameters is consistent and the tree covers every sequence of uncertainty values over the horizon (n_robust = 0, a single combination, or n_robust at least n_horizon), then a feasible problem is followed by a feasible problem whatever admissible uncertainty value the plant has: the closed loop of controller and simulator, started from a state where the problem is feasible and with a solver that finds feasible points where there are any, never becomes infeasible and respects all constraints in every step.", "quantifier": "all models, constraints, histories of API calls of controller and simulator, numbers of steps, parameter sequences", "why_tests_cant": "an invariant over unboundedly many solver calls; a simulation shows a finite run of one configuration", "anchors": ["do_mpc/controller/_mpc.py:MPC._prepare_nlp", "do_mpc/controller/_mpc.py:MPC.make_step", "do_mpc/controller/_mpc.py:MPC.terminal_bounds", "do_mpc/simulator.py:Simulator.make_step"]}
{"id": "C91", "title": "make_step returns the first input of a robust plan of least average cost", "statement": "For a discrete-time model, if the solver finds a best point of the problem it is given, make_step returns the first input of a robust plan (C89) whose cost, averaged over all sequences of uncertainty values the robust horizon allows (stage costs, terminal cost, penalties of rates and of slacks), is not larger than that of any other robust plan; and every first input of a best plan belongs to a best point.", "quantifier": "all models, costs, constraints, scalings, horizons, tables of uncertainty values, measured states and histories of API calls", "why_tests_cant": "an optimum over infinitely many plans; a test compares with a few others", "anchors": ["do_mpc/controller/_mpc.py:MPC._prepare_nlp", "do_mpc/controller/_mpc.py:MPC.make_step", "do_mpc/optimizer.py:Optimizer._setup_scenario_tree"]}
{"id": "C92", "title": "The closed loop costs no more than the first plan", "statement": "For a discrete-time model and one scenario (n_robust = 0 or a single combination of parameters, n_robust < n_horizon, plant without mismatch), if on the terminal bounds some admissible law keeps the constraints and the state within the terminal bounds and decreases the terminal cost by at least the cost of the step, and the solver finds best points, then in the loop u = mpc.make_step(x); x = simulator.make_step(u) the least cost of a plan decreases in every step by at least the stage cost and rate penalty of the step; so the total cost of any number of recorded steps plus the remaining plan is at most the cost of the first plan.", "quantifier": "all models, costs of states and inputs, constraints, scalings, horizons, histories of API calls of both objects, numbers of steps", "why_tests_cant": "a Lyapunov argument over unboundedly many solver calls; a simulation shows a finite run of one configuration", "anchors": ["do_mpc/controller/_mpc.py:MPC._prepare_nlp", "do_mpc/controller/_mpc.py:MPC.make_step", "do_mpc/simulator.py:Simulator.make_step"]}
{"id": "C93", "title": "Sample functions are called with the values of their case", "statement": "A function that takes the variables of the sampling plan (all of them, or with **kwargs; further parameters only as keyword-only ones with defaults) is accepted by set_sample_function, and for every case of a plan made by declaring the variables first it is called with exactly the values of that case, without the id; a case for which a call is not possible raises TypeError and touches no file. Acceptance itself is not enough for a call to be possible.", "quantifier": "all plans, histories of planner calls, function signatures and cases", "why_tests_cant": "all signatures and histories of planner calls; a test tries one function on one plan", "anchors": ["do_mpc/sampling/_sampler.py:Sampler.set_sample_function", "do_mpc/sampling/_sampler.py:Sampler.sample_idx", "do_mpc/sampling/_samplingplanner.py:SamplingPlanner.add_sampling_case"]}
{"id": "C94", "title": "Exporting a sampling plan stores it and destroys nothing", "statement": "After SamplingPlanner.export(name) the plan can be loaded with load_pickle from <stem>.pkl, or, if that file exists and overwrite is off, from the first free one of <stem>1.pkl ... <stem>9999.pkl, where the stem is the name without its extension; no other file changes, and with overwrite off no existing file is touched at any point where the export may be interrupted. Up to 10000 plans exported under one name are all kept. Needs a directory and a stem without '.pkl' inside and a free name.", "quantifier": "all directories, names, contents of the disk, plans, sequences of exports and interruption points", "why_tests_cant": "all file names and disk contents and every crash point", "anchors": ["do_mpc/sampling/_samplingplanner.py:SamplingPlanner.export", "do_mpc/tools/__init__.py:save_pickle", "do_mpc/tools/__init__.py:load_pickle"]}
{"id": "C95", "title": "A continuous-time robust problem is solvable exactly if a robust collocation plan exists", "statement": "With a continuous-time model (orthogonal collocation) the problem handed to the solver has a feasible point whose first input is u0 if and only if there is a plan (inputs as functions of the parameter values seen so far) that starts with u0 such that for every realisation of the uncertain parameters (constant after the robust horizon) every control interval satisfies the differential equation at all collocation points and the algebraic equations at all points, the elements and intervals are joined by the polynomials' end values, and input bounds, state bounds, terminal bounds, nonlinear constraints (soft ones up to their maximum violation) and, with cons_check_colloc_points, the bounds at the collocation points of all intervals but the last one hold.", "quantifier": "all models, horizons, robust horizons, degrees, numbers of finite elements, collocation coefficients, bounds, scalings, soft and hard constraints of states and inputs, open or closed loop, initial states, parameters and previews, candidate first inputs", "why_tests_cant": "existence and non-existence of solutions over all plans and all realisations cannot be sampled", "anchors": ["do_mpc/controller/_mpc.py:MPC._prepare_nlp", "do_mpc/optimizer.py:Optimizer._setup_discretization", "do_mpc/optimizer.py:Optimizer._setup_scenario_tree", "do_mpc/controller/_mpc.py:MPC._update_bounds"]}
{"id": "C96", "title": "With a continuous-time model the controller minimises the cost of the collocation plan", "statement": "With a continuous-time model u0 is the first input of a best point of the problem handed to the solver, with objective value v, if and only if it is the first input of a best robust collocation plan, with cost v, where the cost of a plan is the average over all sequences of parameter values of the stage costs at the beginning of the steps, the terminal cost, and the rate and slack penalties.", "quantifier": "all models, horizons, collocation schemes, bounds, scalings, cost functions of states and inputs, soft and hard constraints, initial states, previews", "why_tests_cant": "optimality compares with all feasible points and all plans, which no test enumerates", "anchors": ["do_mpc/controller/_mpc.py:MPC._prepare_nlp", "do_mpc/controller/_mpc.py:MPC.set_objective", "do_mpc/optimizer.py:Optimizer._setup_discretization"]}
{"id": "C97", "title": "Recursive feasibility with a continuous-time model", "statement": "If the terminal bounds are robustly control invariant, the scenario tree covers every sequence of parameter values, and the plant follows the collocation equations with one of the parameter values, then after a feasible problem the next problem is feasible again.", "quantifier": "all models, horizons, collocation schemes, bounds, scalings, constraints, invariant terminal sets, disturbances and previews", "why_tests_cant": "the claim is about all feasible points and all continuations of the closed loop", "anchors": ["do_mpc/controller/_mpc.py:MPC._prepare_nlp", "do_mpc/controller/_mpc.py:MPC._update_bounds", "do_mpc/optimizer.py:Optimizer._setup_discretization"]}
{"id": "C98", "title": "Solver options are the object's own, last written values", "statement": "The solver that setup builds gets exactly the options written for this MPC or MHE object before setup: under every key the last value written (by settings.nlpsol_opts[key]=..., set_linear_solver, supress_ipopt_output, set_param or assignment of a dictionary), no key that was not written, and nothing that was done to another object; calls after setup change neither the options nor the problem of the solver until setup or compile_nlp is called again; the options shown in data.meta_data are those of the solver.", "quantifier": "all histories of creating objects and dictionaries, writing, assigning and sharing option dictionaries, set_param, set_linear_solver, supress_ipopt_output, setup and compile_nlp of any number of objects", "why_tests_cant": "options live in mutable dictionaries that can be shared between objects, so the result depends on the whole interleaved history of calls on all objects", "anchors": ["do_mpc/controller/_controllersettings.py:MPCSettings", "do_mpc/estimator/_estimatorsettings.py:MHESettings", "do_mpc/controller/_mpc.py:MPC.set_param", "do_mpc/controller/_mpc.py:MPC._create_nlp", "do_mpc/estimator/_mhe.py:MHE._create_nlp", "do_mpc/data.py:Data.set_meta"]}
{"id": "C99", "title": "Compiling does not change the problem that is solved", "statement": "At every moment each MPC or MHE object solves the problem of its own last setup, whichever objects, in this or earlier python processes on the same disk, have called compile_nlp with whichever file names, successfully or not; a failed compilation leaves the solver as it was, and the options of the previous solver are kept.", "quantifier": "all sequences of processes, objects, problems, setups and compile_nlp calls with any overwrite flag, file names and compiler outcome", "why_tests_cant": "the libraries on disk outlive the process, so the outcome depends on all earlier runs and on which names other objects used", "anchors": ["do_mpc/optimizer.py:Optimizer.compile_nlp", "do_mpc/controller/_mpc.py:MPC._create_nlp", "do_mpc/estimator/_mhe.py:MHE._create_nlp"]}
{"id": "C100", "title": "OPC UA clients exchange complete data under any interleaving and outage", "statement": "For several real-time clients on one OPC UA server: outside make_step the output tags of a client hold the complete output of the last step of its do-mpc object; the input of a step is what its read tags held at one moment; a connection failure at any request leaves the tags in a defined state; and a controller and a plant that take turns run exactly the closed loop.", "quantifier": "all numbers of clients, tags, do-mpc objects, interleavings of the single read and write requests, and failures at any request", "why_tests_cant": "the requests of the clients interleave freely and each may fail; tests run one client at a time on a healthy server", "anchors": ["do_mpc/opcua/_base.py:RTBase.make_step", "do_mpc/opcua/_base.py:RTBase.write_to_tags", "do_mpc/opcua/_base.py:RTBase.read_from_tags", "do_mpc/opcua/_client.py:RTClient.writeData", "do_mpc/opcua/_client.py:RTClient.readData"]}
{"id": "C101", "title": "The LQR drives its own plant to the set point, at the promised cost", "statement": "After setup, whatever set points were set and steps made before, the loop u = lqr.make_step(x), x = A x + B u towards a steady-state set point runs for any number of steps from any state, pays exactly (infinite horizon) or at most (finite horizon) the cost the weights predict at its first step, and states and inputs converge to the set point when the stage weights are definite; in standard and in input-rate mode.", "quantifier": "all dimensions, plants, weights, horizons, run-time call histories, steady-state set points, initial states and numbers of steps", "why_tests_cant": "convergence and accumulated cost are statements about infinitely many steps from every state", "anchors": ["do_mpc/controller/_lqr.py:LQR.make_step", "do_mpc/controller/_lqr.py:LQR.discrete_gain", "do_mpc/controller/_lqr.py:LQR.setup", "do_mpc/controller/_lqr.py:LQR.set_objective", "do_mpc/controller/_lqr.py:LQR.set_setpoint"]}
{"id": "C102", "title": "On noise-free data the MHE stays right, and output feedback equals state feedback", "statement": "Started from the true state and parameters (setup, x0, p_est0, set_initial_guess), an estimator with the default objective and the default measurement window, given the measurements of a plant that follows its model without noise, returns the true state at every make_step, for any number of steps, and keeps the parameter estimates; so any controller fed with the estimates applies the inputs it would apply knowing the states.", "quantifier": "all models, horizons, weights, constraints and bounds the plant respects, plant trajectories, controllers, earlier call histories and numbers of steps", "why_tests_cant": "the claim is about every step of every closed-loop run of two stateful objects, each step depending on the whole window before it", "anchors": ["do_mpc/estimator/_mhe.py:MHE.make_step", "do_mpc/estimator/_mhe.py:MHE.setup", "do_mpc/estimator/_mhe.py:MHE._check_validity", "do_mpc/estimator/_mhe.py:MHE._prepare_nlp", "do_mpc/estimator/_mhe.py:MHE.set_initial_guess", "do_mpc/estimator/_mhe.py:MHE.set_default_objective"]}
{"id": "C103", "title": "make_step of the MHE returns the last state of a cheapest explanation of the measurements", "statement": "Call an explanation of the measurements of a window: states, inputs, process and measurement noise and parameters, in physical units, that follow the model (discrete-time or by the collocation equations), reproduce the measurements and respect bounds and constraints up to allowed violations; its price: arrival cost, stage costs and penalties.  The problem of a step is feasible exactly when there is an explanation; given a solver that finds an optimum when one exists, every make_step returns the last state of a cheapest explanation, the arrival cost referring to time 1 (and the parameters) of the explanation of the previous step; the scaling of states, inputs and algebraic states does not change what is optimal.", "quantifier": "all models, discretisations, horizons, costs, constraints, bounds, positive scalings of states, inputs and algebraic states (estimated parameters with the default scaling), earlier call histories, measurement sequences and numbers of steps", "why_tests_cant": "optimality compares with every other explanation, and each step depends on the optimum of the step before", "anchors": ["do_mpc/estimator/_mhe.py:MHE.make_step", "do_mpc/estimator/_mhe.py:MHE._prepare_nlp", "do_mpc/estimator/_mhe.py:MHE._update_bounds", "do_mpc/estimator/_mhe.py:MHE.setup", "do_mpc/optimizer.py:Optimizer.solve", "do_mpc/optimizer.py:Optimizer._setup_discretization"]}
{"id": "C104", "title": "An MPC with the LQR's model and weights returns the LQR's input", "statement": "For a linear discrete-time model, the weights of an LQR as quadratic stage and terminal cost around a steady state, no uncertainty, and bounds and constraints that are not active along a cheapest input sequence, make_step of the MPC returns the input that make_step of the LQR returns: of the finite-horizon LQR with the same horizon and terminal weight; of the infinite-horizon LQR, for every prediction horizon, if the terminal weight solves the Riccati equation; and with a penalty on input changes, of the LQR in rate mode.", "quantifier": "all dimensions, plants, weights, horizons, steady states, bounds, constraints, scaling factors, states, earlier call histories of both controllers", "why_tests_cant": "equality of an optimiser's result and a matrix recursion for every state, weight and horizon", "anchors": ["do_mpc/controller/_mpc.py:MPC.make_step", "do_mpc/controller/_mpc.py:MPC._prepare_nlp", "do_mpc/controller/_mpc.py:MPC.set_objective", "do_mpc/controller/_mpc.py:MPC.set_rterm", "do_mpc/controller/_lqr.py:LQR.make_step", "do_mpc/controller/_lqr.py:LQR.discrete_gain", "do_mpc/controller/_lqr.py:LQR.set_rterm"]}
{"id": "C105", "title": "An MPC with the LQR's model and weights drives the linear plant through the LQR's trajectory", "statement": "Let an MPC controller have a linear model, the LQR's weights around a steady state, no rate penalty (or the one matching delR), and let neither bounds nor constraints be active along a cheapest plan from any state of the LQR's closed-loop trajectory. Then running 'u = mpc.make_step(x); x = A x + B u' for any number of steps from any initial state never raises and goes through exactly the states and inputs that the same loop with the LQR goes through. With the Riccati solution as terminal weight, for every prediction horizon, the cost of the first k steps plus the weighted remaining error equals the weighted initial error; with a definite Q and a terminal weight that over-estimates the cost to go, states and inputs converge to the set point.", "quantifier": "all linear models and weights, all dimensions, all prediction horizons, all histories of calls on both objects before the loop, all initial states, all numbers of steps, all solvers that return a best point", "why_tests_cant": "equality of two closed-loop trajectories of any length and their convergence cannot be observed in a finite number of runs with a finite number of steps", "anchors": ["do_mpc/controller/_mpc.py:MPC.make_step", "do_mpc/controller/_mpc.py:MPC._prepare_nlp", "do_mpc/controller/_mpc.py:MPC.set_objective", "do_mpc/controller/_mpc.py:MPC.set_rterm", "do_mpc/controller/_lqr.py:LQR.make_step", "do_mpc/controller/_lqr.py:LQR.discrete_gain", "do_mpc/controller/_lqr.py:LQR.set_setpoint", "do_mpc/controller/_lqr.py:LQR.set_rterm"]}
{"id": "C106", "title": "A rate penalty given as an expression is charged on physical inputs", "statement": "The expression passed to set_rterm is charged, once for every edge of the scenario tree, at the state and input of the node, the input of the step before (the previously applied input in step 0), tvp and parameters, all in physical units, so an expression that is zero without a change of the inputs charges nothing for constant inputs; solving the problem is then finding a robust plan of least average cost including this charge, and passing factors or the quadratic expression of these factors is the same.", "quantifier": "all expressions, scalings, scenario trees, horizons, points and plans", "why_tests_cant": "quantifies over all expressions, all real scalings and points, and optimality compares with every feasible point and plan", "anchors": ["do_mpc/controller/_mpc.py:MPC.set_rterm", "do_mpc/controller/_mpc.py:MPC._prepare_nlp"]}
{"id": "C107", "title": "The rate penalty charged is the one configured with set_rterm", "statement": "After any calls of set_rterm before setup, the problem charges what the last accepted call asked for: its expression, or for every input the last factor given (0 without one); a call that raises changes nothing; set_rterm is accepted exactly before setup with a scalar casadi expression of the model's symbols or with factors for declared inputs; after setup every call raises and the penalty never changes.", "quantifier": "all sequences of calls of set_rterm, prepare_nlp, create_nlp and setup, all inputs, factors and expressions, all trees, points and scalings 1", "why_tests_cant": "quantifies over every history of calls, including failing ones; the outcome of a call depends on which kind of penalty was configured at any time before", "anchors": ["do_mpc/controller/_mpc.py:MPC.set_rterm", "do_mpc/controller/_mpc.py:MPC._prepare_nlp", "do_mpc/controller/_mpc.py:MPC.setup"]}
