# DESIGN — a Rocq model of do-mpc

Source under study: `/repo` (do-mpc, python). The code was read, never run. All
files are in `rocq/theories/` (logical name `Verif`).

## Layout

For each area `X`:
* `XModel.v`  — total, computable Gallina definitions that follow the python
  function branch by branch; every definition cites file and lines. Python
  exceptions are values (`Err e`). No proofs.
* `XSpec.v` (where the English property needs vocabulary of its own) — small
  independent specification.
* `XProofs.v` — lemmas.
* `XProps.v`  — only the property theorems (`exact lemma`), a concrete
  non-vacuity `Example` beside each, `Print Assumptions` beneath each.

Theorem name suffixes: `_partial` (part of the property; what is missing is said
in the comment and in MANIFEST.json), `_refuted` (the faithful model violates the
property; the witness is a finding about do-mpc).

## Plan per property (written before the proofs)

| id | model | proof |
|----|-------|-------|
| C01–C04 | `_setup_scenario_tree` as the nested loops filling finite maps (child, parent, structure_scenario, branch offset) | closed form of the loops by induction, then arithmetic on c^min(k,r); C04 refuted for n_robust>=3 and n_robust = N, proved for the remaining range |
| C05–C11 | `_prepare_nlp`/`_update_bounds` as a generator of symbolic constraints, bounds and objective terms over indexed decision variables, evaluated in an ordered field with user functions as arbitrary functions | membership characterisation of the generated lists, then iff with the tree dynamics spec |
| C12 | Lagrange coefficient loops over a field, mathcomp polynomials | uniqueness of interpolation |
| C13 | the offset loops of `_setup_discretization` | induction on elements / points |
| C14–C16 | controller object as record of flags + configuration + data; solver is an oracle | invariants over op lists |
| C17,C18 | bounds as finite maps | read-over-write laws; C17 refuted |
| C19,C21,C22,C23 | default y_fun, make_step, bounds, constraints | induction on history; C22 refuted |
| C20 | p_est/p_set split and concatenation | induction on the parameter list |
| C24,C25 | `Data` as map field -> rows plus query cache | refinement to list of records |
| C26 | save_results name loop over a file-system map | search loop terminates at fresh name; frame |
| C27,C28 | `Structure` as in the code (four parallel lists) | refinement to an association list; C28 refuted (off-by-one) |
| C29,C30 | planner state machine | invariant; product = spec product |
| C31–C33 | sampler over a file-system map, crash = prefix of the write sequence | invariant over step lists |
| C34,C35 | data handler with its cache | C34 refuted for stale caches, proved for fresh handlers |
| C36–C38 | model declaration state machine with the string-replace chain | invariants; C36 refuted for one documented name |
| C39–C41 | simulator/controller/estimator step functions, loops | induction |
| C42,C43,C45 | Riccati recursion over matrices (mathcomp, any real field) | completing the square by induction on the horizon |
| C44 | LQR object with set-points | C44 refuted for repeated set-points in rate mode |
| C46–C48 | linear-model helpers on matrices/shape level | C46 refuted (feed-through dropped), C47 partial, C48 refuted for vectors |
| C49,C50 | index bookkeeping of the NLP differentiator | partitions, scatter/gather laws |
| C51,C52 | tag map and timer state machine with arbitrary scheduler | C52 refuted |
| C53,C54 | graphics on top of `Structure` | C53, C54 refuted |
| C55 | graph evaluation fold over an arbitrary operation semantics | induction on node list |
| C56 | timer state machine | induction |
| C57 | descriptor object shared by a class | refuted |
| C58 | rate penalty terms of `_prepare_nlp` (same generator as C07) | exact value of the charge; refuted in physical units |
| C59 | model declaration machine, `setup` split into its three raising stages | state after a failed setup characterised; partly refuted |
| C60, C63 | heap model of the casadi structures behind `x0`, `u0`, `z0`, `p0` (aliasing) | separation invariant over histories; refuted for shared structures |
| C61 | simulator object (same machine as C39) | rows after a reset; refuted in general |
| C62 | MPC object, second `setup` | invariant; refuted with soft constraints |
| C64–C67 | estimator object and estimation NLP generator | history invariant, membership characterisation, noise-free optimum |
| C68, C69 | `linearize`, `LinearModel.setup`/getters, `discretize`, `get_steady_state` | matrix algebra; Jacobians as the linear part of the exact expansion |
| C70–C73 | whole `NLPDifferentiator.differentiate` | KKT system algebra in mathcomp; implicit derivative uniqueness |
| C74 | every ONNX operation handler on matrices | pointwise value theorems; refutations for attributes |
| C75 | MPC object: bounds handed to the solver | history invariant |
| C76 | simulator and estimator setup | acceptance condition iff |
| C77 | low-level interface: `nlp_obj`, `nlp_cons*`, `prepare_nlp`, `create_nlp`, `solve` with arguments of the solver call | two phases with an invariant each; satisfaction of concatenated constraints block by block |
| C78 | `lb_opt_x`, `ub_opt_x` together with `_update_bounds` | stored bounds = physical bounds over scaling, invariant over histories |
| C79 | repeated `setup`, `compile_nlp` | sizes of solver object and multipliers as invariant |
| C80 | the NLP of C05–C09 against a plant simulated with a policy, no tree in the statement | the scenario tree has a path for every realisation, induction over the horizon |
| C81 | life cycle, optimisation problem and simulator put together (LinkModel.v) | first move of a feasible point (one edge of the tree) and induction over the steps of the loop |
| C82, C83 | expressions of the model as trees over symbols, `setup`'s substitution and the CasADi functions it makes (SymModel, on top of MdlModel) | substitution lemma, invariant of the declaration history |
| C84 | python objects holding symbols, `_substitute_exported_vars`, `_getvar` | which generation of symbols an object denotes; refuted for all but returned variables |
| C85 | `__getstate__`, `__setstate__` | invariant preserved by a round trip, induction over round trips |
| C86 | `__getitem__` | direct; refuted for 'v' |
| C87 | `default_plot` on top of the line bookkeeping of C53 | induction over the variables; refuted for lists of algebraic states |
| C88 | `DoMPCDifferentiator` as a second object beside the optimizer: what is copied at construction, what is read at the call | invariant over histories, then C71; refuted for changed bounds, second setup, new guess |
| C89 | the NLP of C05–C09 against plans, both directions | point -> policy read off the nodes; policy -> point by simulating along the history of each node, unused nodes copied, slacks set to the largest need |
| C90 | as C89 and C81 | shifted plan with the terminal law appended; induction over the steps of the loop; refuted for short robust horizons |
| C91 | the objective of C07 against the cost of a plan, averaged over all sequences of rows, both directions; then make_step of C81 | leaves of the tree = sequences of rows; a point and a plan with the same states, inputs and slacks have the same cost |
| C92 | as C90 and C91, one scenario | cost of the shifted plan with the terminal law appended; induction over the steps of the loop |
| C93 | set_sample_function, python's binding of keyword arguments, the planner of C29 | keys of every planned case by induction over the calls; binding characterised exactly |
| C94 | export with os.path.splitext, the numbering loop and the disk before, during and after writing | induction over the numbers; rfind lemmas; induction over the exports |
| C95 | as C89 for collocation models | as C89 with the collocation points of every step; storage index = (element, point) by division |
| C96 | as C91 for collocation models | as C91 on top of C95 |
| C97 | as C90 for collocation models | shifted plan with the terminal law's interval appended; refuted with cons_check_colloc_points |
| C98 | heap of option dictionaries, objects holding references, solver = (problem, copied options) (SoptModel.v) | specification on the list of calls: dictionary in force, last write (SoptSpec.v); invariant over histories (SoptProofs.v, SoptProps.v); refuted parts: shared dictionary, constructor argument, meta data |
| C99 | the same model with C files and libraries on a disk that outlives the process | induction over processes and calls with an owner of each library name; refuted parts: default names, stale library, failing gcc, options |
| C100 | server of OpcModel.v, clients acting one request at a time with optional failure (OpcnetModel.v) | invariants over all schedules; an uninterrupted step refines make_step of OpcModel.v; induction over rounds for the closed loop; refuted parts: torn input, torn output |
| C101 | the controller object of LqrModel.v in loop with x+ = A x + B u | cost to go decreases by the stage cost (completing the square, monotonicity of the Riccati step); coercivity of definite forms by Cauchy-Schwarz; geometric decay (LqrstabProofs.v); refuted part: default terminal weight |
| C102 | the problem of MheNlpModel.v solved by the object of MheModel.v (HlinkModel.v), a plant that follows the model | every minimiser of a window has cost 0, so no noise, and the window is determined by induction on its steps; invariant over the calls of make_step; output feedback by induction on the inputs; refuted part: padded first windows (computed run) |
| C103 | explanations in physical units (HexplSpec.v); the problem defined by the accepted calls (mhe_problem_of); the problem of MheNlpModel.v solved by the object of MheModel.v (HlinkModel.v) | bijection between points and explanations (divide by the scaling), constraint by constraint from C22, C23 and C66; invariant over the calls of make_step |
| C104 | MPC object and problem (MpcModel.v, NlpModel.v, LinkModel.v), LQR object (LqrModel.v) over the reals (RealField.v) | C91 (make_step is the first input of a best plan); the cost of a plan is the LQR's cost plus non-negative slack charges; the first input of a cheapest sequence is unique (C42); fixed point of the Riccati step |
| C105 | the loop "u = make_step(x); x = A x + B u" with MpcModel.v/LinkModel.v and with LqrModel.v | induction on the number of steps: make_step extends the history by an entry that changes none of the quantities the problem is built from, so C104 applies again with the previous input; C101 for convergence |
| C106 | user-defined rate penalty of `_prepare_nlp` (`RUser` in NlpModel.v) | refuted by a concrete feasible point; exact charge from the sum over the edges; bijection of points and plans of C91 and of C96 (collocation) with the charge averaged over the leaves of the tree; make_step as in C91 for a link with the expression (LinkModel.v) |
| C107 | set_rterm and the choice of the penalty in `_prepare_nlp` (RcfgModel.v), histories of calls that may fail | invariant over the calls (the factors agree with the keywords reached so far); C58 and C106 for the objective |


Properties that cannot be expressed: none of the list. Numerical accuracy of IPOPT,
CVODES, scipy (`solve_discrete_are`, `cont2discrete`), CasADi's symbolic engine and
floating point rounding are outside the model (see trusted base); where a property
depends on them the theorem quantifies over every answer they may give, or says in a
hypothesis which answer is assumed (for example C71: the linear solver returns a
solution).

## Trusted base

* **Coq 8.16.1's kernel.** No plugin, no extraction, no `native_compute`; `vm_compute`
  is used (part of the kernel). No axiom is declared in `rocq/theories`, no `Admitted`,
  no section-less `Variable`, no functor or module type, no kernel check switched off.
* **Axioms of the standard library.** Only those `Print Assumptions` lists; the full list
  per theorem is at the end of this file. They come from `Coq.Reals` (the real numbers of
  the NLP models: `sig_forall_dec`, `sig_not_dec`), from
  `Coq.Logic.FunctionalExtensionality`, for a few theorems `Coq.Logic.Classical_Prop.classic`
  (pulled in by real analysis lemmas) and, for C104 and C105 only,
  `Coq.Logic.ClassicalEpsilon.constructive_indefinite_description` (the choice operator that makes the
  real numbers a mathcomp field in RealField.v). Everything else is closed under the global context.
  `vcheck` additionally lists as `library_axioms` constants of sealed modules of the
  installed libraries (`Coq.Reals.Rdefinitions.RbaseSymbolsImpl.*`, `mathcomp.*.Imset.*`,
  `Coq.ssr.ssrunder.Under_rel.*`, ...): these are *defined* constants whose module was
  sealed with a signature, not axioms, and `Print Assumptions` does not report them.
* **The reading of the python source.** The model is written by hand; each definition cites
  the lines it models and says where it simplifies.
* **Numbers are exact**: elements of `Z`, `Q`, `R` or an arbitrary (real) field, not IEEE
  doubles.
* **User-supplied functions and external engines are arbitrary functions** quantified in
  the theorems: model right-hand sides, costs, constraints, tvp/p/y functions, sample
  functions; NLP solver, integrator, linear solver, Riccati solver, OPC UA server.
  They are assumed to be functions of their arguments (no hidden state) and to return,
  where the model has no exception for them.

### Modelled

| code | model |
|------|-------|
| `optimizer.py` scenario tree (886-975), bounds and scaling descriptors, `set_nl_cons`, `set_tvp_fun`, `_setup_nl_cons`, collocation matrices (`_setup_discretization`), `_update_bounds` | TreeModel, NlpModel, MpcModel, CollocModel |
| `controller/_mpc.py` `set_rterm` with factors or an expression, and which penalty `_prepare_nlp` picks | RcfgModel, NlpModel (the life cycle in MpcModel has factors only) |
| `optimizer.py` low-level interface (82-265, 709-787, 1038-1081) with `_prepare_nlp`/`_create_nlp` as opaque builders, `solve` with every argument of the solver call | OptModel |
| the three together: `make_step` of MPC and Simulator with the NLP of NlpModel inside, discrete time | LinkModel |
| `controller/_mpc.py` set-up, objective, `_prepare_nlp` (all constraint, bound and objective terms), `set_uncertainty_values`, `make_step`, `reset_history`, initial guess | NlpModel, MpcModel, ProductModel |
| `controller/_lqr.py` whole file; `controller/_controllersettings.py` (fields that branch) | LqrModel, MpcModel |
| `estimator/_mhe.py`, `estimator/_base.py` whole files except plotting of options | MheModel, MheNlpModel |
| `simulator.py` whole file | SimModel |
| `model/_model.py` declarations, setup, name mangling; `_iteratedvariables.py` initial values and aliasing; `_linearize.py`, `_linearmodel.py`, `_dae2odeconversion.py` | MdlModel, SymModel (expressions, symbols, functions, pickling), AliasModel, LinModel, DaeModel |
| `data.py` Data, MPCData, save/load | DataModel |
| `graphics.py` add_line, plot_results, plot_predictions, reset, clear, default_plot, animate's frames and file names | GfxModel |
| `sampling/*` planner, sampler (processes interleaving on a file system), data handler | SamplingModel |
| `sampling/_sampler.py` set_sample_function with python's keyword calls; `_samplingplanner.py` export, `tools` save/load_pickle | CallModel, ExportModel |
| `differentiator/*` reduction, active sets, KKT system, solve paths, status, mapping back | DiffModel |
| `differentiator/_nlpdifferentiator.py` DoMPCDifferentiator with the optimizer object it reads | DwModel |
| `sysid/_onnxconversion.py` construction, convert, every operation handler | OnnxModel |
| `opcua/*` address space, tags, clients, timers with an arbitrary scheduler | OpcModel, RtModel |
| `tools/_structure.py`, `_timer.py`, `_indexedproperty.py` | StructModel, ToolsModel |

### Not modelled

Printing and logging; documentation helpers; matplotlib itself (a line is what was last
given to `set_data`); casadi's symbolic engine (an expression is a function of its
variables, in SymModel a tree over symbols; `jacobian` is the exact derivative); code generation and compilation
(`compile_nlp`); `_ekf.py` (a stub that raises); pickling formats (a file is whole,
partial or absent); network and threads below the level of "a timer fires" and "one
OPC UA read or write".

## Findings about do-mpc (counter-examples proved in the model)

Each is a `_refuted` theorem or follows from an exact (`iff`) theorem.

* **MPC.** The getter of terminal bounds returns the state bounds (C17). After a setup with
  default terminal bounds the terminal structure *is* the state-bound structure (C18).
  Terminal bounds are applied even if `use_terminal_bounds=False` (C75). With
  `cons_check_colloc_points` the collocation points of the last interval carry no bound (C08), and with
  `nl_cons_check_colloc_points` they are not checked (C09); in discrete time that setting reads a
  variable that does not exist (C09). For `n_robust = n_horizon` the terminal cost is evaluated at the
  wrong state, and in a branching tree the stage cost reads the algebraic state of another node (C07).
  The rate penalty is charged on scaled inputs and summed, not averaged, over scenarios (C58).
  A user-defined rate expression gets the physical input but the previous input divided by its
  scaling, so it charges a plan that never moves the input (C106). Factors passed to `set_rterm` after an
  expression are ignored, and a call of it that raises can change the penalty (C107).
  Repeating `setup` with soft constraints raises (C62). Settings assigned after setup are
  accepted and silently ignored (C16, C39). `prepare_nlp` then a scaling then `create_nlp`
  returns a wrongly scaled input (C14). Predicted columns of some scenarios are wrong for
  `n_robust >= 3` or `n_robust = n_horizon` (C04).
* **Low-level interface.** Custom bounds read back divided by the scaling, and any later `bounds[...]`
  assignment replaces all of them (C78). A repeated `setup` with another problem size makes the next solve
  raise (stale multipliers), `compile_nlp` always raises NameError (C79). Forgotten bounds of added constraints are only
  noticed by solve; `prepare_nlp` on a set-up object refuses the objective but accepts constraints (C77).
* **MHE.** Scaled estimated parameters are used unscaled-back in the measurement equation, the
  stage cost, the nonlinear constraints and the auxiliary expressions (C23, C65, C66). Nonlinear
  constraints are never imposed on the returned estimate x_N (C65); without the collocation
  check x_0 and x_N have no bounds (C22). A new horizon after setup keeps the old window (C19). A
  raising step has already recorded its measurement (C19). Recorded state rows lag one step (C64).
  Unknown names in `p_est_list` are ignored (C20).
* **Simulator.** Auxiliary expressions are recorded with the previous inputs and parameters; in
  discrete time the algebraic state lags (C61). `t_step` assigned after setup changes the clock but
  not the integration (C39). `t0` refuses every casadi DM (C63).
* **Linear systems.** `discretize` drops D, offsets and measurement names (C46). The rank test of
  `get_steady_state` is wrong (C47). `linearize` raises for C = I, D != 0 (C68). A failed
  `LinearModel.setup` leaves a measurement behind (C69). `dae2ode` is wrong for vector inputs,
  name clashes, order of noise, discrete models, time-varying parameters (C48). In rate mode,
  repeated set-points of the LQR accumulate (C44).
* **Differentiator.** DoMPCDifferentiator keeps the bounds and the problem of the moment it was made: after a
  change the active set and the derivatives are wrong (C88). `set_lam_zero=True` cannot be used (C70); the length of `p_num` is checked
  only after reduction, the scipy solver fails with one parameter (C73, C70).
* **OPC UA.** The next timer is armed before the step is made: steps of one wrapper may overlap; a stop
  racing with a fired timer is undone (C52). Labels containing `default` get no node;
  re-registration doubles the prefix; equal client names clash; writes are not atomic (C51).
* **ONNX.** Shapes, Elu's alpha, broadcasting, Gemm without C, Concat axis -2, Slice attributes by
  position, Reshape in column-major order (C55, C74).
* **Graphics.** A variable added twice leaves a dead line; `plot_results()` on empty data,
  `plot_predictions(t_ind=n)`, animations of non-MPC data and `add_line('_p')` on MPC data raise
  (C53). `animate(overwrite=False)` looks for `.pkl` files and overwrites animations (C54).
  `default_plot(dae_states_list=...)` checks the names against the inputs and refuses algebraic states (C87).
* **Sampling.** A crash while a result is written leaves a truncated file that later runs keep (C31);
  `.pkl` in the path misdirects results (C31); index n gives IndexError (C33); cached results are
  stale after the plan or the processing functions change (C34).
* **Tools.** One default object is shared by all instances of a descriptor (C57); reading a
  Structure by full index fails when a stored index is a proper prefix (C27) and slices are off by one
  (C28); a clock reading of exactly 0 is taken for "not started" (C56).
* **Model.** the documented type name `timevarying_parameter` is always rejected (C36); a failed setup leaves the
  model partly unusable (C59). Expressions made before setup and entries of `model.x` taken before setup cannot be used
  afterwards (C84); `model['x','v']` is refused (C86).

## Mutation testing

`seeded/LOG.jsonl` has one line per edited definition: what was edited, which claim the edit breaks,
which theorems failed, and which theorems were added or tightened because of it
(`theorems_tightened` non-empty: the edit survived at first). The edits are made in a scratch copy.

## Status per property (generated from MANIFEST.json)

| id | title | status | files | note |
|----|-------|--------|-------|------|
| C01 | Multi-stage scenario tree is a tree | proved | TreeProps.v |  |
| C02 | Every uncertainty sequence occurs exactly once | proved | TreeProps.v |  |
| C03 | Nominal control uses only the nominal parameters | proved | TreeProps.v | scalar parameters only |
| C04 | A predicted scenario is a root-to-leaf path of the tree | partial | TreeProps.v | The property is false of the code for c>=2 and (n_robust>=3 or n_robust>=N): structure_scenario has wrong columns. The iff theorem states exactly when it holds. |
| C05 | Non-anticipativity of robust inputs | proved | NlpProps.v |  |
| C06 | Equality constraints of the MPC problem are exactly the tree dynamics | proved | NlpProps.v |  |
| C07 | Objective is the scenario-averaged cost | partial | NlpProps.v | Proved for n_robust < N and default rate penalty, with the algebraic state stored under the node index. False of the code for n_robust = N (terminal cost evaluated at x[N,parent]) and for stage costs reading algebraic states in a branching tree. |
| C08 | Bounds hold at every prediction step | partial | NlpProps.v | iff characterisation of the variable bounds. With cons_check_colloc_points the collocation points of the last interval carry no bound, so the full property is false of the code. |
| C09 | Nonlinear constraints are imposed at every step, softened only as declared | partial | NlpProps.v, NlpProps2.v | Proved for nl_cons_check_colloc_points=False, with the algebraic state stored under the node index, and for constraints on the states at the collocation points of all intervals but the last when it is True; refuted for the other cases. |
| C10 | Constraint vector and its bounds are aligned | proved | NlpProps.v |  |
| C100 | OPC UA clients exchange complete data under any interleaving and outage | partial | OpcnetProps.v | Proved for all schedules: complete outputs when the client's own requests do not fail; otherwise earlier tags are never older than later ones; inputs are values the tags held, in tag order, and a snapshot when the tags do not change during the step; turns give the closed loop. Missing because false of the code: without those conditions inputs and outputs can be torn. |
| C101 | The LQR drives its own plant to the set point, at the promised cost | partial | LqrstabProps.v | Proved over every archimedean ordered field: infinite horizon (both modes) from scipy's documented contract (a symmetric positive semidefinite solution of the DARE), finite horizon in standard mode for terminal weights that decrease under some linear feedback. Missing because false of the code: the default terminal weight P = Q (the loop diverges on a scalar example). |
| C102 | On noise-free data the MHE stays right, and output feedback equals state feedback | partial | HlinkProps.v | Proved for discrete-time models, unit scaling of estimated parameters, positive definite weights, models whose noise-free measurement determines the step, a solver that returns a minimiser when there is one, and (horizon above 1) a plant at rest in its first step. Missing because false of the code: without that rest the first windows repeat the oldest measurement and the first estimates are wrong. Not covered: collocation. |
| C103 | make_step of the MHE returns the last state of a cheapest explanation of the measurements | proved | HexplProps.v | For discrete-time and collocation models, with and without cons_check_colloc_points, nl_cons_check_colloc_points and nl_cons_single_slack; scaling of estimated parameters 1 (otherwise false: C23_scaled_parameter_refuted, C66_scaled_parameter_refuted); a solver that returns a minimiser when there is one. |
| C104 | An MPC with the LQR's model and weights returns the LQR's input | proved | MlqrProps.v | Over the real numbers of the standard library (as a mathcomp field: RealField.v, which uses the standard library's epsilon operator). Symmetric weights, Q and P positive semidefinite, the weight of what the LQR minimises over positive definite; a solver that returns a best point when there is one; n_robust = 0, nl_cons_check_colloc_points off. The rate penalty of the MPC applies to the scaled inputs (hence the scaling in the corresponding delR). |
| C105 | An MPC with the LQR's model and weights drives the linear plant through the LQR's trajectory | proved | MlqrLoopProps.v | Over the real numbers of the standard library (RealField.v). Conditions as for C104, the constraints being inactive along a cheapest plan from every state of the trajectory, at every time. Convergence and the cost identity are proved for the standard mode; for the rate mode only that the trajectories coincide. |
| C106 | A rate penalty given as an expression is charged on physical inputs | partial | CurateProps.v, UlinkProps.v, UplanProps.v, UrateProps.v | Finding: the code passes the physical input but the previous input divided by its scaling, so with a scaling other than 1 the expression (u - u_prev)^2 charges constant inputs. The exact charge is proved for every scaling, and it is the physical one with scaling 1. Expressions of algebraic states get those stored under the index of the node (as C07_stage_cost_algebraic_refuted). The equivalence with plans is proved under the restrictions of C91 (discrete-time models) and C96 (collocation), the plan being charged as the code does (previous input divided by the scaling); for discrete-time models also for make_step after any regular history, with a solver that finds a best point. |
| C107 | The rate penalty charged is the one configured with set_rterm | partial | RcfgProps.v | Findings: factors passed after an expression are accepted and ignored; a call that raises leaves the factors before the failing keyword assigned; between prepare_nlp and create_nlp set_rterm is accepted without effect. The exact rule (last good expression, otherwise the last reached keyword of every input) is proved for all histories and connected with the objective of the problem for inputs of scaling 1 (otherwise C58, C106). |
| C11 | Scaling does not change the solved problem | proved | NlpProps.v | feasible set and all costs except the rate penalty (see C58) |
| C12 | Orthogonal collocation is exact on polynomials | proved | CollocProps.v | numbers range over an arbitrary field; floating point is not modelled |
| C13 | Collocation layout uses every variable exactly once | proved | NlpProps.v |  |
| C14 | MPC step protocol | partial | MpcHistProps.v, MpcProps.v | Proved for every history and every solver; 'unscaled' and 'one row per field' need the ordinary route (setup, set_param): refuted if scaling changes between prepare_nlp and create_nlp, or if a storage setting is changed by attribute after setup. |
| C15 | Setup checks are complete and ordered | proved | MpcProps.v | iff, over all histories; building the symbolic problem itself is assumed not to raise |
| C16 | Configuration is frozen after setup | partial | MpcProps.v | Proved for set_param/objective/rterm/nl_cons/scaling and for bounds; refuted for the settings object and for terminal bounds set after setup (accepted, never applied). |
| C17 | Terminal bounds read back what was set | partial | MpcHistProps.v, MpcProps.v | False of the code: after every regular history the getter returns the state bound assigned last, so a terminal bound is read back only where it equals the state bound. |
| C18 | Bounds and scaling read back and are independent per variable | partial | MpcProps.v | Proved for bounds and scaling setters; with use_terminal_bounds the terminal structure becomes the state-bound structure, so setting one changes the other (refuted). |
| C19 | Moving horizon window contains the most recent measurements | partial | MheProps.v | Proved for every ordinary history (settings not changed after setup); a new horizon followed by a new setup keeps the old window template and steps raise (refuted). |
| C20 | Estimated and set parameters together form the model parameters | proved | MheProps.v | All parameter lists and all lists of estimated names. |
| C21 | MHE step protocol | partial | MheHistProps.v, MheProps.v | Every step that returns normally in any history; every step of ordinary histories returns normally; a raising step has already recorded its measurement (refuted). |
| C22 | State bounds constrain the returned estimate | partial | MheNlpProps.v | Exact with cons_check_colloc_points (default); without it the returned estimate is unbounded (refuted). |
| C23 | MHE equality constraints are exactly the dynamics plus measurement equation | partial | MheNlpProps.v | Exact characterisation for discrete and collocation models; equals the property with unit scaling of estimated parameters; with other scalings the measurement equation uses the scaled parameter (refuted). |
| C24 | Recorded history is append-only and complete | proved | DataProps.v |  |
| C25 | Querying recorded data is pure and cache-transparent | proved | DataProps.v | the power-index to positions map (CasADi structure) is an arbitrary function of the query |
| C26 | Saving results never destroys existing results unless asked to | proved | DataProps.v | pickle round trip and directory creation are not modelled |
| C27 | Power-indexed structure behaves as an insertion-ordered map | partial | StructProps.v | reading by full index is refuted when a stored index is a proper prefix of the one read; proved otherwise |
| C28 | Partial power indices select exactly the matching entries | partial | StructProps.v | exact characterisation of what is returned; the full statement is refuted |
| C29 | Sampling plan: cases are complete, valid and uniquely identified | partial | SamplingProps.v | variables declared after a case was added, or named 'id', are the exceptions (refuted); user generators are assumed not to raise |
| C30 | Grid sampling enumerates the full Cartesian product once | proved | SamplingProps.v | no sampling variable is named 'id' |
| C31 | Interrupted sampling can be resumed without loss or recomputation | partial | SamplerProps.v | every crash point except between opening and completely writing a file; that one, and '.pkl' inside the path, are refuted |
| C32 | Sampling order independence | proved | SamplerProps.v | any sequential order, and any number of concurrent processes under any schedule |
| C33 | Index check of single-sample evaluation | partial | SamplerProps.v | index n raises IndexError instead of the documented assertion |
| C34 | Data handler returns the current results | partial | HandlerProps.v | refuted when a result changes after it was first queried; proved otherwise |
| C35 | Filter selects exactly the matching cases | proved | HandlerProps.v | filters return booleans and can be evaluated; results as in C34 |
| C36 | Variable declaration protocol | partial | MdlProps.v | the documented type name 'timevarying_parameter' is always rejected by the code (refuted); everything else is proved |
| C37 | Model setup requires exactly one right-hand side per state | proved | MdlProps.v | column vectors; CasADi's behaviour on repeated structure names is arbitrary (sufficiency assumes it accepts distinct names); CasADi accepting the functions is a hypothesis here; it is characterised in C83. |
| C38 | Setup freezes the model | proved | MdlProps.v |  |
| C39 | Simulator trajectory is the iterate of the model | proved | SimProps.v | Over all histories that do not write the settings object after setup; writing it is accepted by the code and breaks the claim (refuted theorems). |
| C40 | Simulator history lengths and times | proved | SimProps.v | All fields have as many rows as accepted steps since the last reset. |
| C41 | Closed loop consistency | proved | SimProps.v | MPC and simulator with any ordinary history; measurement equals state; equal clocks and sampling times. |
| C42 | Finite-horizon LQR gain is optimal | proved | LqrProps.v | exact arithmetic in any real field; existence and uniqueness of the optimal first input, after any run-time calls |
| C43 | Infinite-horizon LQR fixed point | proved | LqrProps.v | scipy's solve_discrete_are is an arbitrary function assumed to return a psd symmetric solution |
| C44 | LQR set-point tracking is consistent | partial | LqrProps.v | rest at the set point holds in both modes; repeated set points are refuted in input-rate mode |
| C45 | Input-rate formulation is the same system | proved | LqrProps.v |  |
| C46 | Discretised linear model and measurement | partial | LinProps.v | Discretised model: dynamics are those of cont2discrete; the measurement is kept exactly when feed-through and offset vanish (C46_kept_iff). The code drops D, so the full property is false (C46_feedthrough_refuted). cont2discrete is an arbitrary function. |
| C47 | Steady state helper | partial | LinProps.v | Correct and unique when A and I-A are invertible; otherwise raises although a unique steady state may exist; for non-square B an input is returned even when the state is not steady for any input. |
| C48 | DAE to ODE conversion keeps inputs | partial | DaeExamples.v, DaeProps.v | Proved for scalar inputs, distinct names, noise in declaration order, continuous time; the four refutations show each restriction is needed. |
| C49 | Active set detection partitions constraints | proved | DiffProps.v | Exact real arithmetic. |
| C50 | Reduction and re-expansion of sensitivities | proved | DiffProps.v | For every answer of the linear solver. |
| C51 | OPC UA namespace registration | partial | OpcProps.v | Registration, read-after-write, size checks and a whole client step are proved for every reachable server; false of the code: labels containing 'default' get no node, a second registration renames every variable, a second client with the same name fails, and a failing write has already changed earlier tags. |
| C52 | Real-time trigger: steps of one client never overlap and stop is final | partial | RtProps.v | False for general schedules: the next timer is armed before the step is made, so steps longer than the cycle overlap without bound, and a stop that races with a fired timer is undone. Proved for schedules in which every step ends before the next timer fires and requests do not race. |
| C53 | Plotted result lines show exactly the recorded data | partial | GfxProps.v | Proved for all histories in which no variable is added twice; a variable added twice leaves a dead first line, plot_results() on empty data, plot_predictions at the number of rows, animate on non-MPC data and add_line of a parameter with MPC data raise (refuted). |
| C54 | Animation export does not overwrite existing files | partial | GfxAnimProps.v | False of the code: the existence test looks for name.pkl, so an existing animation is replaced; proved: exactly one file is written and files beside a .pkl of the same name survive. |
| C55 | ONNX conversion evaluates the graph | partial | OnnxProps.v | Evaluation, uniqueness, acceptance, refusal and failure are proved for every well-formed graph; false of the code: shapes of inputs with several dimensions are not checked, inputs named verbose or self cannot be converted, and initialized inputs are listed but cannot be queried. |
| C56 | Timer statistics | proved | ToolsProps.v | exact arithmetic; a clock reading of exactly 0 is the exception (refuted) |
| C57 | Per-object settings | partial | ToolsProps.v | Proved for direct accesses obj.prop[key] and for settings other than the shared default integration_opts; the exceptions are refuted. |
| C58 | Rate penalty is charged on physical input changes | partial | NlpProps.v | The code penalises scaled input changes: the exact charge is proved, and it is the physical one exactly when the input scaling is 1. |
| C59 | A failed model setup can be corrected | partial | MdlProps.v | False of the code: a failed setup replaces the lists of expressions and measurements by structures. Proved: exactly which declaring calls are still accepted after every kind of failed first setup (a second setup after a failure is an arbitrary function). |
| C60 | Initial values are independent per object | partial | AliasProps.v | Proved for array arguments; false for structure arguments, which are stored by reference and then overwritten in place. |
| C61 | Recorded simulator rows are self-consistent | partial | SimProps.v | First row after a reset proved, and all rows for auxiliary expressions of x and z only; otherwise input and parameters lag one row, and in discrete time the algebraic state lags (refuted). |
| C62 | Setup can be repeated | partial | MpcProps.v | Proved when no slack symbols are left over; false with soft constraints. |
| C63 | Setters of current values | partial | AliasProps.v | Arrays proved; t0 refuses every casadi.DM; structures of another layout are accepted. |
| C64 | Recorded state rows of the estimator | partial | MheProps.v | The rows are the estimates from before each step (refuted as stated; the lag is proved exactly). |
| C65 | Nonlinear constraints hold on the estimate | partial | MheNlpProps.v | Holds at x_0..x_(N-1) with unit parameter scaling; the returned x_N is not constrained (refuted). |
| C66 | The estimation objective is the one the user set | partial | MheNlpProps.v | Exact; in physical units with unit scaling of estimated parameters, otherwise the stage cost sees the scaled parameter (refuted). |
| C67 | Noise-free data are explained exactly | proved | MheNlpProps.v | Discrete-time models, unit scaling of estimated parameters, positive scaling of the other variables, full window. |
| C68 | Linearisation gives the Jacobian system | partial | LinProps.v | Holds unless the measurement is exactly the state plus a non-zero feed-through, where linearize raises TypeError. |
| C69 | Matrices of a linear model | partial | LinProps.v | First half proved for all histories; a repeated setup keeps the measurement of the failed attempt. |
| C70 | Documented settings of the differentiator can be used | partial | DiffProps.v | False of the code: with set_lam_zero=True every call that passes the argument checks raises UnboundLocalError. Proved: with set_lam_zero=False every other combination of settings returns matrices of the documented shape for every well-sized solution, if the linear solvers answer with matrices of the right shape or raise. |
| C71 | Returned matrices are the parametric sensitivities | proved | DiffProps.v | First-order changes are defined by dual numbers, independently of symbolic differentiation; exact arithmetic, residual exactly zero. |
| C72 | Status flags of the differentiator are truthful | proved | DiffProps.v | Exact arithmetic (matrix_rank is the exact rank). |
| C73 | Arguments of differentiate are checked | partial | DiffProps.v | Length is checked only after the reduction to used parameters, and SciPy's one-dimensional answer for a single parameter raises IndexError; the check works when no variable or parameter is unused. |
| C74 | ONNX operations compute the standard's values | partial | OnnxOpsProps.v | Real matrices of at most two dimensions; false of the code: alpha of Elu, row broadcasting, Gemm without C or with 1-d bias for several rows, Concat axis -2, Slice attribute order, Reshape order. |
| C75 | Bounds in force at every solve | proved | MpcHistProps.v | Every history in which terminal bounds are given before setup and no setup finds slack symbols of an earlier one. Terminal bounds apply even if use_terminal_bounds is False. |
| C76 | Setup of simulator and estimator is accepted exactly when complete | proved | MheHistProps.v, SimProps.v | All histories of calls. (For MPC: C15.) |
| C77 | Custom cost and constraint terms are solved | partial | OptExamples.v, OptProps.v | Proved for every history along the documented route (prepare, additions with bounds of equal size, create, any use). False of the code: forgotten bounds are noticed only when solve raises; prepare_nlp on a set-up object refuses the objective but accepts constraints and leaves solve raising; a vector assigned to nlp_cons_lb before create_nlp makes create_nlp raise for good. |
| C78 | Custom bounds on single optimisation variables | partial | OptExamples.v, OptProps.v | The bounds handed to the solver are proved for every history. False of the code: reading returns the value divided by the scaling, and any later assignment to bounds (even one that changes nothing) replaces all custom bounds by the ordinary ones. |
| C79 | Repeated setup solves the new problem | partial | OptExamples.v, OptProps.v | Proved when all configurations give problems of equal size; false otherwise (the multipliers of the previous problem are passed to the new solver, which raises), and compile_nlp always raises NameError after setup. |
| C80 | The robust plan respects the constraints under every realisation of the uncertain parameters | proved | RobustProps.v | Discrete-time models whose algebraic equations determine the algebraic states. Nonlinear constraints are those on states, inputs and parameters (constraints on algebraic states are C09_algebraic_constraint_refuted), with nl_cons_check_colloc_points off. |
| C81 | The closed loop respects the configured constraints while the solver succeeds | proved | LinkProps.v | Composition of MpcModel, NlpModel and SimModel (LinkModel.v) for discrete-time models; the solver is arbitrary, its result is assumed feasible step by step. With n_horizon = 1 the terminal bounds apply to the next state instead of the state bounds. |
| C82 | The functions of a model compute the user's equations | proved | SymProps.v | Expressions are trees over symbols and arbitrary binary operations; variables are column vectors. |
| C83 | setup accepts exactly the equations over declared variables | proved | SymProps.v | CasADi's refusal of free symbols when a Function is made is part of the model. |
| C84 | Symbols obtained before setup can be used after it | partial | SymProps.v | Proved for the objects returned by set_variable. False of the code for everything else: entries of model.x taken before setup and expressions made before setup (including the return value of set_expression) keep symbols that no function of the set-up model accepts. |
| C85 | Pickled models are the same models | proved | SymProps.v | The pickle format itself and CasADi's serialisation of functions are trusted: structures of symbols come back as new symbols, functions unchanged. |
| C86 | Indexing a model returns its attributes | partial | SymProps.v | False of the code for 'v' (measurement noise) in a tuple. |
| C87 | default_plot shows every variable on its own axis | partial | GfxPlotProps.v | False of the code for lists of algebraic states: dae_states_list is checked against the names of the inputs, so naming an algebraic state raises. Proved for every choice of states, inputs and auxiliary expressions with all or no algebraic states. |
| C88 | Sensitivities read from a controller belong to its last solve | partial | DwProps.v | False of the code when bounds or the problem are changed after the differentiator was made (it keeps a copy of problem, bounds and scaling; the active set and so the derivatives are wrong) or when opt_x_num is overwritten (set_initial_guess) after the solve. Proved for every other history. Exact arithmetic. |
| C89 | The controller's problem is solvable exactly if a robust plan exists | proved | PlanProps.v | Discrete-time models, nl_cons_check_colloc_points off, constraints on states, inputs and parameters (algebraic states: C09_algebraic_constraint_refuted), maximum violations not negative. |
| C90 | Recursive feasibility | proved | LinkPlanProps.v, PlanProps.v | Under the conditions of C89 and C81. With a robust horizon shorter than the horizon the conclusion is false (C90_short_robust_horizon_refuted), which is why the property asks for a tree that covers every sequence. |
| C91 | make_step returns the first input of a robust plan of least average cost | partial | BestProps.v, LinkBestProps.v | Proved for n_robust < n_horizon, costs and constraints of states and inputs, default rate penalty (expressions: C106), constraints not checked at collocation points, with and without nl_cons_single_slack; missing are the other cases (C07_terminal_cost_refuted, C07_stage_cost_algebraic_refuted, C09_algebraic_constraint_refuted), and the penalties of rates and slacks enter with the number of branches as weight instead of averaged (C58). |
| C92 | The closed loop costs no more than the first plan | proved | DescProps.v, LinkDescProps.v | Under the conditions of C91 (costs and constraints of states and inputs, default rate penalty, with and without nl_cons_single_slack) and the terminal conditions named in the property; that feasible problems have best points and the solver finds them is an assumption about the solver. A rate penalty must be covered by the decrease of the terminal cost. |
| C93 | Sample functions are called with the values of their case | proved | CallProps.v | Python's rules for calls by keyword are part of the model. The refutations show what acceptance does not check: missing variables, a parameter called id, required keyword-only or positional-only parameters, variables declared after the first case; and that an additional parameter with a default is rejected. |
| C94 | Exporting a sampling plan stores it and destroys nothing | proved | ExportProps.v | Files are identified by the name under which they are opened; pickling is taken to be faithful. Outside the stated conditions: all names taken (silently nothing is stored), '.pkl' inside directory or stem (another file is overwritten), names that differ only after the last dot (same file). |
| C95 | A continuous-time robust problem is solvable exactly if a robust collocation plan exists | proved | CplanProps.v | nl_cons_check_colloc_points off; constraints of states and inputs (constraints of algebraic states: C09_algebraic_constraint_refuted). |
| C96 | With a continuous-time model the controller minimises the cost of the collocation plan | partial | CbestProps.v | Restrictions as for C91 (n_robust < n_horizon, costs and constraints of states and inputs, default rate penalty, nl_cons_check_colloc_points off; with and without nl_cons_single_slack). |
| C97 | Recursive feasibility with a continuous-time model | partial | CshiftProps.v | Proved without cons_check_colloc_points, and with it when the points of the last interval respect the bounds. False of the code otherwise: the last interval's points carry no bounds, so a feasible problem can be followed by an infeasible one. |
| C98 | Solver options are the object's own, last written values | partial | SoptProps.v | Proved for every history: last written value under every key, no other key, frozen until the next setup or compile_nlp, and only the object's own writes when no dictionary is passed around. Missing because false of the code: a dictionary given to two objects is shared; the settings argument of the MPC constructor is dropped; meta_data follows later writes although the solver does not. |
| C99 | Compiling does not change the problem that is solved | partial | SoptProps.v | Proved when every library name is used for one problem only, or when every compilation overwrites and succeeds. Missing because false of the code: two objects with the default file names, a stale library, a failing overwrite (return code ignored); options changed since setup are picked up. |

## What Print Assumptions lists, theorem by theorem

Every theorem in MANIFEST.json, grouped by the exact answer of `Print Assumptions`.

**Closed under the global context** (no axiom at all):

`C01_empty_horizon_rejected`, `C01_scenario_tree_is_a_tree`, `C02_sequences_label_leaves`, `C03_nominal_tree`, `C03_uncertainty_values`, `C04_prediction_columns_iff`, `C04_prediction_columns_refuted`, `C100_failures_leave_a_prefix`, `C100_input_is_a_snapshot_partial`, `C100_inputs_were_on_the_server`, `C100_output_is_published_partial`, `C100_torn_input_refuted`, `C100_torn_output_refuted`, `C100_turns_are_the_closed_loop`, `C100_uninterrupted_step_is_make_step`, `C101_default_terminal_weight_refuted`, `C101_finite_horizon_loop`, `C101_infinite_horizon_loop`, `C101_rate_mode_loop`, `C12_collocation_exact`, `C12_polynomial_solutions_reproduced`, `C13_layout_uses_every_variable_once`, `C14_history_determines_step`, `C14_manual_route_refuted`, `C14_ordinary_histories`, `C14_setting_after_setup_refuted`, `C14_step_protocol`, `C15_no_step_before_setup`, `C15_setup_accepted_iff`, `C16_bounds_take_effect`, `C16_definition_frozen_partial`, `C16_problem_unchanged`, `C16_settings_not_frozen_refuted`, `C16_terminal_after_setup_ignored`, `C16_terminal_bounds_refuted`, `C17_terminal_bounds_refuted`, `C17_terminal_getter_returns_state_bound`, `C17_terminal_read_partial`, `C18_bounds_read_back`, `C18_scaling_read_back`, `C18_terminal_alias_refuted`, `C19_new_horizon_refuted`, `C19_user_source`, `C19_window`, `C20_parameters_from_one_source`, `C21_history_determines_estimate`, `C21_ordinary_histories`, `C21_raising_step_misaligns_refuted`, `C21_reference_is_previous_solution`, `C21_refused_step_no_effect`, `C21_step_protocol`, `C24_stored_is_recorded`, `C24_update_frame`, `C25_prediction_of_recorded`, `C25_query_columns`, `C25_unknown_field`, `C26_overwrite_and_rejection`, `C26_save_never_destroys`, `C27_insertion_ordered_map`, `C27_nested_values`, `C27_read_full_index_partial`, `C27_read_full_index_refuted`, `C28_partial_index_partial`, `C28_partial_index_refuted`, `C28_positions`, `C28_slices_partial`, `C29_add_case`, `C29_all_variables_refuted`, `C29_plan_partial`, `C30_product_enumerates`, `C30_product_rejects`, `C31_crash_during_write_refuted`, `C31_pkl_in_path_refuted`, `C31_resume_partial`, `C32_order_independent`, `C33_index_check_partial`, `C33_index_check_refuted`, `C34_current_results_partial`, `C34_index_semantics`, `C34_slices`, `C34_stale_results_refuted`, `C35_filter_exact`, `C36_declaration_partial`, `C36_timevarying_parameter_refuted`, `C37_noise_entries`, `C37_setup_requires`, `C37_setup_succeeds`, `C38_before_setup`, `C38_frozen`, `C39_bad_step_no_effect`, `C39_raising_step_has_effects_refuted`, `C39_setting_after_setup_refuted`, `C39_steps_follow_model`, `C40_after_reset`, `C40_rows_and_times`, `C41_closed_loop`, `C41_loop_calls`, `C42_finite_horizon_optimal`, `C42_rate_mode_optimal`, `C43_infinite_horizon_gain`, `C44_rate_setpoint_refuted`, `C44_rate_uss_lost_refuted`, `C44_setpoint_at_rest_partial`, `C44_standard_setpoints_usable_partial`, `C45_rate_formulation`, `C46_discretize_partial`, `C46_feedthrough_refuted`, `C46_kept_iff`, `C47_continuous_refused`, `C47_from_input_iff`, `C47_from_input_partial`, `C47_from_state_partial`, `C47_from_state_square_partial`, `C47_not_steady_refuted`, `C47_singular_input_refuted`, `C47_zero_dynamics_refuted`, `C49_equality_active`, `C49_partition`, `C50_positions`, `C50_used`, `C51_atomic_refuted`, `C51_default_refuted`, `C51_last_write`, `C51_refused`, `C51_register`, `C51_register_twice_refuted`, `C51_roundtrip`, `C51_same_name_refuted`, `C51_step`, `C51_unregistered`, `C51_wanted`, `C52_double_start_refuted`, `C52_on_time_partial`, `C52_overlap_refuted`, `C52_restart_overlap_refuted`, `C52_stop_final_partial`, `C52_stop_refuted`, `C53_added`, `C53_errors_refuted`, `C53_frame_partial`, `C53_predictions_partial`, `C53_results_partial`, `C53_twice_refuted`, `C54_export_partial`, `C54_format`, `C54_overwrite_refuted`, `C54_writer_refuted`, `C55_converts`, `C55_evaluates`, `C55_failure_keeps`, `C55_length`, `C55_listed_refuted`, `C55_name_refuted`, `C55_refused`, `C55_shape_refuted`, `C56_durations`, `C56_statistics`, `C56_zero_clock_refuted`, `C57_indexed_properties_partial`, `C57_integrator_options_refuted`, `C57_kept_property_refuted`, `C57_nested_key_refuted`, `C57_optimizers_have_own_options`, `C57_settings_partial`, `C59_after_failed_setup_partial`, `C59_failed_setup_refuted`, `C60_arrays_independent_partial`, `C60_shared_structure_refuted`, `C60_user_structure_refuted`, `C61_algebraic_refuted`, `C61_aux_refuted`, `C61_aux_rows_partial`, `C62_setup_after_failed_setup_refuted`, `C62_setup_again_partial`, `C62_setup_again_refuted`, `C63_layout_refuted`, `C63_set_read_back`, `C63_time_dm_refuted`, `C63_time_partial`, `C64_recorded_state_refuted`, `C64_recorded_states_lag_partial`, `C68_feedthrough_refuted`, `C68_linearize_partial`, `C69_matrices`, `C69_setup_retry_refuted`, `C70_returns_partial`, `C70_set_lam_zero_refuted`, `C71_exact_solver`, `C71_first_order`, `C71_scaled`, `C71_unique`, `C72_lse_solved`, `C72_status`, `C73_parameter_length_partial`, `C73_parameter_length_refuted`, `C73_scipy_single_parameter_refuted`, `C74_reshape_refuted`, `C74_reshape_vector`, `C74_slice`, `C74_slice_refuted`, `C75_bounds_of_every_solve`, `C75_bounds_read`, `C75_terminal_bounds_apply_without_the_setting`, `C76_mhe_refused_setup_no_effect`, `C76_mhe_setup_accepted_iff`, `C76_refused_setup_no_effect`, `C76_simulator_setup_accepted_iff`, `C82_expressions`, `C82_functions`, `C83_only_declared`, `C83_setup_succeeds`, `C84_accepted`, `C84_before_setup`, `C84_exported_partial`, `C84_stale_refuted`, `C85_pickle`, `C85_refused`, `C86_single`, `C86_tuple_only`, `C86_tuple_partial`, `C86_v_refuted`, `C87_dae_states_refuted`, `C87_default_plot_partial`, `C87_unknown_refused`, `C88_bounds_refuted`, `C88_guess_refuted`, `C88_last_solve_partial`, `C88_refused`, `C88_setup_refuted`, `C88_unique_partial`, `C93_accepted_callable_refuted`, `C93_accepted_iff`, `C93_call_iff`, `C93_first_case_only_refuted`, `C93_impossible_call_raises`, `C93_planned_calls`, `C93_working_rejected_refuted`, `C94_all_names_taken_refuted`, `C94_different_names_refuted`, `C94_export_never_destroys`, `C94_export_stores_plan`, `C94_exports_accumulate`, `C94_pkl_in_name_refuted`, `C94_stem_of_every_name`, `C98_constructor_settings_refuted`, `C98_later_calls_do_not_reach_the_solver`, `C98_meta_at_setup_partial`, `C98_meta_later_refuted`, `C98_options_are_the_objects_own`, `C98_options_are_those_written`, `C98_shared_dictionary_refuted`, `C99_compiled_solver_solves_own_problem_partial`, `C99_default_names_refuted`, `C99_failed_compilation_keeps_solver`, `C99_options_kept_refuted`, `C99_overwriting_is_safe_partial`, `C99_stale_library_refuted`

**Axioms `ClassicalDedekindReals.sig_forall_dec`**:

`C107_accepted_before_create_refuted`, `C107_accepted_iff`, `C107_charged_penalty_partial`, `C107_factors_after_expression_ignored`, `C107_frozen_after_setup`, `C107_last_call_counts_refuted`, `C107_rejected_expression_changes_nothing`, `C107_rejected_factors_change_nothing_refuted`, `C48_name_clash_refuted`, `C74_concat`, `C74_concat_refuted`, `C74_row_refuted`

**Axioms `ClassicalDedekindReals.sig_forall_dec`, `FunctionalExtensionality.functional_extensionality_dep`**:

`C05_inputs_are_non_anticipative`, `C06_collocation_constraints`, `C06_equality_constraints_are_the_dynamics`, `C07_objective_is_scenario_average_partial`, `C07_stage_cost_algebraic_refuted`, `C07_terminal_cost_refuted`, `C08_bounds_hold_partial`, `C08_last_interval_refuted`, `C09_algebraic_constraint_refuted`, `C09_colloc_input_refuted`, `C09_colloc_states_partial`, `C09_discrete_colloc_check_refuted`, `C09_last_interval_refuted`, `C09_nonlinear_constraints_partial`, `C102_output_feedback`, `C102_right_stays_right`, `C102_start_without_rest_refuted`, `C103_estimates_are_cheapest_explanations`, `C103_feasible_iff_explanation`, `C103_points_are_explanations`, `C103_scaling_irrelevant`, `C106_charge_partial`, `C106_collocation_factors_same_best_plans`, `C106_collocation_objective_is_plan_cost_partial`, `C106_collocation_optimal_iff_partial`, `C106_factors_are_an_expression`, `C106_factors_same_best_plans`, `C106_make_step_is_optimal_partial`, `C106_no_change_charged_refuted`, `C106_objective_is_plan_cost_partial`, `C106_optimal_iff_partial`, `C107_objective_partial`, `C10_constraint_vectors_aligned`, `C11_scaling_invariance`, `C13_equations_match_variables`, `C22_bounds`, `C22_bounds_without_check_partial`, `C22_returned_estimate_refuted`, `C23_constraints_partial`, `C23_constraints_unit_scaling`, `C23_discrete_colloc_check_refuted`, `C23_scaled_parameter_refuted`, `C23_vectors_aligned`, `C48_dae2ode_partial`, `C48_discrete_refuted`, `C48_noise_order_refuted`, `C48_vector_input_refuted`, `C58_rate_penalty_partial`, `C58_rate_penalty_physical_refuted`, `C65_nonlinear_constraints_partial`, `C65_returned_estimate_refuted`, `C66_default_objective`, `C66_objective_partial`, `C66_objective_unit_scaling`, `C66_scaled_parameter_refuted`, `C67_noise_free_data`, `C74_elementwise`, `C74_gemm`, `C74_gemm_refuted`, `C74_matmul`, `C74_sum`, `C77_extra_terms_are_solved`, `C77_forgotten_bound_refuted`, `C77_new_constraint_bounds`, `C77_prepare_after_setup_refuted`, `C77_refused_after`, `C77_refused_before`, `C77_vector_before_create_refuted`, `C78_bounds_in_force`, `C78_custom_bound`, `C78_overwritten_refuted`, `C78_read_back_is_scaled`, `C78_read_write_refuted`, `C79_compile_raises_refuted`, `C79_other_size_refuted`, `C79_setup_again_partial`, `C80_robust_plan`, `C81_closed_loop_constraints`, `C81_states_within_bounds`, `C89_feasible_iff_robust_plan`, `C90_closed_loop_feasible_forever`, `C90_recursive_feasibility`, `C90_short_robust_horizon_refuted`, `C91_make_step_is_optimal_partial`, `C91_objective_is_plan_cost_partial`, `C91_optimal_iff_partial`, `C92_closed_loop_cost`, `C92_cost_decreases`, `C95_feasible_iff_collocation_plan`, `C96_objective_is_collocation_cost_partial`, `C96_optimal_iff_partial`, `C97_collocation_checks_refuted`, `C97_recursive_feasibility_partial`

**Axioms `ClassicalDedekindReals.sig_forall_dec`, `ClassicalDedekindReals.sig_not_dec`, `Classical_Prop.classic`, `FunctionalExtensionality.functional_extensionality_dep`**:

`C48_consistency_partial`, `C74_activations`, `C74_elu_refuted`

**Axioms `ClassicalDedekindReals.sig_forall_dec`, `ClassicalEpsilon.constructive_indefinite_description`, `Classical_Prop.classic`, `FunctionalExtensionality.functional_extensionality_dep`**:

`C104_mpc_is_finite_horizon_lqr`, `C104_mpc_is_rate_lqr`, `C104_mpc_with_riccati_weight_is_lqr`, `C105_finite_horizon_loops_coincide`, `C105_rate_loops_coincide`, `C105_riccati_loops_coincide`
