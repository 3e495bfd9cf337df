# Formal model of jax-ml/oryx in Rocq (Coq 8.16.1)

Everything is under `rocq/theories`. Each area has

* `<Area>Model.v`  – Gallina definitions mirroring the Python functions branch by branch, every
  definition with a comment citing file and lines in /repo; exceptions are values;
* `<Area>Spec.v` (or a clearly marked part) – small specifications that do not use the model's helpers;
* `<Area>Proofs.v` – lemmas;
* `<Area>Props.v`  – only `Theorem ... exact lemma. Qed. Print Assumptions` plus `Example`s that the
  hypotheses are satisfiable.

Where the code violates a property the theorem is named `..._refuted` (a witness computed on the faithful
model) and it is accompanied by the strongest true variant, named `..._partial`.

## Plan, property by property (written before the proofs)

| id | what is modelled | how it is proved |
|----|------------------|------------------|
| C01 | `matcher.py` match / is_match / match_all; generators as lists of yields plus an optional trailing exception | unfolding, case analysis on the result stream |
| C02 | all pattern classes, success continuations | declarative relation `fits b p e`; induction over pattern syntax with continuation-invariants |
| C03 | as C02 | solution-directed induction: the continuation is reached with a dictionary below the solution |
| C04 | as C02; refuted for named Choice | monotonicity of bindings by induction |
| C05 | as C02 | structural induction on the literal |
| C06 | Star matcher | explicit enumeration of the splits |
| C07 C08 | Not, Choice | characterisation lemmas for arbitrary continuations |
| C09–C12 | `rules.py` make_rule (with lru_cache as an explicit table), rule_list, in_order, iterated (fuel) | induction over histories / fuel monotonicity |
| C13–C15 | rewrite_subexpressions, bottom_up, top_down, term_rewriter on Python terms | structural induction; well-founded measure |
| C16–C18 | `jax_rewrite.py` Jaxpr -> expressions -> evaluation | simulation between jaxpr interpreter and expression evaluator, induction on equations/nesting |
| C19 C20 | `einsum.py`, finite-index sums over an abstract commutative semiring | sum exchange, substitution of indices |
| C21 C22 | `addn.py`, `canonicalize.py` | structural induction |
| C23–C33 | `harvest.py`: programs with sow/nest/scan/while/cond/pjit; reap, plant, harvest interpreters with contexts stack | simulation against a specification semantics producing an event trace |
| C34 C35 | `slice.py`, cells of `inverse/core.py` | index-set semantics |
| C36 | `propagate.py` worklist | standard chaotic iteration invariants over arbitrary queue orders |
| C37–C39 | `inverse/core.py`, `inverse/rules.py` over reals | soundness invariant of cells; real analysis via Coq Reals |
| C40 | `log_prob.py` | soundness of the cell environment, fold over equations |
| C41–C43 | `ppl/transformations.py` on the harvest model | corollaries of harvest theorems |
| C44 | `ppl/effect_handler.py` | induction over jaxpr |
| C45–C48 | `state/*.py` | induction on programs/modules |
| C49–C51 | `kwargs_util.py`, `primitive.py`, `trace_util.py` | case analysis, induction over histories |
| C52–C55 | `optimizers/optix.py` over reals | induction over the gradient sequence |
| C56–C59 | `mcmc/kernels.py`, `mcmc/utils.py` over reals, finite state spaces | algebra; induction |
| C60–C62 | `nn/*.py` | induction over layers / updates |

Appended later: C63 (`random_variable`), C64 (set-iteration order in `inverse`), C65 (canonical form); planned as
C41, C37 and C22.  C66 (`mcmc/utils.py` constrain): from C39, by the chain rule and uniqueness of derivatives over the reals
(Constrain.v).  C67 (`distribution_extensions.py`: random_variable under vmap): model of the batching rule and the log_prob rule
with right-aligned broadcasting; induction over the nesting of vmaps.  C68 (harvest under vmap): a translation of programs to vmapped programs (VmapHarvestModel.v) and a
simulation between the run of the vmapped program and the runs of the examples, by induction over programs.  C69 (util/summary.py): corollary of C24/C33.  C72 (experimental/nn; NnLayers, NnPool, NnConv): closed formulas for the outputs of the layers of NnModel, with windows, row-major order and correlations specified anew.  C73 (vmapped layer calls; NnVmapModel, NnVmap*): networks without BatchNorm by induction over the layer; with BatchNorm a simulation, up to equality inside the bounds, between the batch and each example.  C74 (keyword arguments of function modules; KwModel, KwSpec, Kw*): a direct interpreter for functions, tracing, and evaluation with keyword arguments; simulation by induction over statements.  C71 (plate_util.py; PlateModel, PlateProps): the programs of C40 over families of values, one for each instance of the named axis; corollary of C40_log_prob_exact, whose specification has a case for plates.  C70 (harvest and jvp): programs carrying derivatives are translated to
their forward-mode programs (JvpHarvestModel.v); simulation by induction over programs.  C75 (jvp outside reap/plant/harvest): GradHarvestModel.v mirrors reapT/plantT on programs with derivatives; GradHarvestSpec.v defines velocities of curves of trees and dictionaries by limits of difference quotients; a logical relation (smooth) is kept by reap and plant and implies that jvp computes velocities.

C76 (custom_inverse.py; CustomInvModel, CustomInvProofs, CustomInvRule, CustomInvMain): `one` is a jaxpr with one custom call; the jaxpr of inverse(f_inv) is traced symbolically (`mirrors`: the registered inverse of each operation, in reverse order; the dead equations that compute the ILDJ which inverse discards are left out) and propagated again for the automatic ILDJ; compositions extend the chains of C39 by custom links.  An exception inside an automatic inverse is represented by NaN in `auto_inverse`/`auto_ildj`; C76_auto_returns shows that none occurs.

C77 (rewrite(f, canonicalize); CanonRewriteModel, CanonRewriteProofs, CanonRewrite): jaxprs whose variables declare shapes; simulation between JAX's execution with shape checks (`srun`, which refines `run` of JaxModel.v: C77_srun_is_run) and the evaluation of the expressions, by induction over jaxprs, then C22.  Progress (CanonProgressSpec, CanonProgress, CanonReturns): a relation between an expression and what a rule makes of it (same value, still acceptable, no more letters needed) is preserved by the rules, their caches and the term rewriter, and implies that no rule raises.

C78 (custom_jvp under reap and plant; CustomJvpModel, CustomJvpProofs, CustomJvpProps): `cprog` adds functions with JVP rules to the differentiable programs of C75; `jreapT` is the program that jax.jvp(reap(f)) traces to. Simulation between it and reap of `jvpC f` (the program that jvp runs) by induction, using C70/C75 for the parts without rules; tangents by the invariant that names not sown outside rules have zero tangents. Plant: refinement of plant of the inlined program.

C79 (bound functions; BindModel, BindProofs, BindProps): Python functions over pytrees (`term`, with closures, branches and marked calls) run at a `level`: arrays, JVP tracers, batches, or a staging trace over another level whose state is the jaxpr under construction. One evaluator for all levels; a marked call evaluates its body at the staging level and binds the jaxpr. Proof: a staging trace over a level that simulates an algebra simulates it too (tracers denote what evaluating the equations so far gives); then induction on the program, for all levels at once. `unmarked` removes the marks; the statement compares both runs.

C80 (reverse mode; VjpModel, VjpProofs, VjpProps, VjpMain, VjpPlant): `vprog` are straight-line programs, nests, core calls, conds, scans (transposed: scans over residuals that run the other way) and custom_vjp functions (fwd with residuals, bwd) whose elementary steps carry derivative and transposed derivative; jax.vjp is a forward program that returns residuals and a backward program (harvest.py's JVP and transposition rules of sow and nest: tangents and cotangents handed on). `reapV` is reap with the transposed plumbing: the cotangent of a stored value is added to that of the sown one, cotangents of resown names move between dictionaries; in a scan the cotangents of appended values are unstacked and fed to the iterations, those of clobbered names travel backwards in the carry to the iteration that wrote last. Cotangents live in `Cotangents`: any commutative monoid with a pairing additive in the cotangent (integers, reals); a name missing in a dictionary of cotangents is a symbolic zero. Proof: `Adj`, "jvp and vjp agree on the pairing", is closed under composition and holds of reap's plumbing; simulation for the statements about rules. Premise `sound`: each elementary step's transpose is one. VjpPlant: `plantV` is plant with the transposed plumbing (proved: forgetting the transposes gives C75's plantD); a planted value sends its cotangent to the plant and zero to the value it replaces. Cotangents of plants are formal sums of entries (name, cotangent); in a scan an entry of iteration i becomes a stacked cotangent that is zero elsewhere. Proof: every step of plantV is sound, so C80_transpose applies. Not modelled there: functions with rules. VjpPlantOf: plant applied to vjp(f) (rules included): a relation between planted fwdT and planted f, and nothing to plant in a pullback whose rules sow nothing.

## Coverage: what is modelled and what is not

The citation comments in the `*Model.v` files are the exact list; `tools/cites.py` prints the cited lines.

| source file | model | not modelled |
|---|---|---|
| experimental/matching/matcher.py | PyVal, MatcherModel | `__str__`, abstract base classes; generators are lists of yields with an optional final exception |
| experimental/matching/rules.py | RulesModel | concurrent use of the caches |
| experimental/matching/jax_rewrite.py | JaxModel, CanonicalizeModel | dtypes; sharding and other pjit parameters; printing; custom_jvp/vjp rules |
| experimental/autoconj/einsum.py, addn.py, canonicalize.py | Tensor, EinsumModel, CanonModel, CanonicalizeModel | dtypes, broadcasting addition, implicit-output and ellipsis formulas |
| core/interpreters/harvest.py | HarvestModel (sow, nest, reap, plant, call_and_reap, harvest; calls, pjit, scan, while, cond), VmapHarvestModel (batching of sow and nest), JvpHarvestModel (JVP of sow and nest), GradHarvestModel (jvp of reap, plant and harvest), CustomJvpModel (custom_jvp in straight-line code, calls and nests), VjpModel (transposition of sow and nest; custom_vjp under reap and vjp; calls, nests, conds, scans) | MLIR registrations of sow and nest, unmapped sown values under vmap, remat, plant under vjp, custom rules under jit and control flow, sow_cond in reverse mode, sharding |
| core/ppl/transformations.py | PplModel | `log_prob` wrapper is C40's model; `ppl.plate` is `make_plate` (PlateModel, C71) |
| core/ppl/effect_handler.py | EffectModel | jaxprs of scan/while/cond (the code does not interpret them either) |
| core/state/*.py | StateModel, StateNestModel, KwModel (keyword arguments) | dtypes; class registries other than list, tuple, function, layer |
| core/kwargs_util.py, primitive.py, trace_util.py | UtilModel, BindModel (initial_style_bind, call_bind, tie_all, stage at all levels) | transposition rules; sharing of constants; threads |
| core/interpreters/propagate.py | PropModel | the `while` of nested jaxprs with constants fails in the code and in the model |
| core/interpreters/inverse/{core,slice,custom_inverse,bijector_extensions}.py, log_prob.py | SliceModel, InverseModel | strides; integer dtypes; ordering ties broken by object identity are an arbitrary schedule |
| core/interpreters/inverse/rules.py | InvRulesModel (real numbers) | floating point rounding, NaN is a separate value |
| experimental/optimizers/optix.py | OptixModel, LoopModel | floating point; dtypes |
| experimental/mcmc/kernels.py, utils.py | McmcModel, LoopModel | floating point; pseudo-random numbers are functions of keys, in C56-C58 with given distributions |
| experimental/nn/*.py | NnModel, NnVmapModel, KwModel (nn/function.py) | dtypes; the named initialisers (arbitrary functions of key and shape) |
| util/summary.py | SummaryProps | |
| distributions/ (other than distribution_extensions.py: VmapRv), bijectors/, serialize.py, pytree.py, tools/ | not modelled | re-exports of tensorflow_probability, pickle, tracing summaries, docs |

JAX itself is represented by: programs (`prog` in HarvestModel, jaxprs in JaxModel/PropModel/InverseModel), an
interpreter for them, and abstract primitives given as functions; the tracing machinery is not modelled.  Exceptions
are values; two exceptions of the same class are the same.  Where a definition simplifies, its comment says so.

## Findings (each a theorem `..._refuted` or `..._raises` about the model)

C02/C03/C04/C05/C06 named Star/Choice/Not corner cases of the matcher; C09 dict expressions raise; C10 `lru_cache`
identifies 1 and 1.0 (`MatcherEq.v`/`RulesEq.v`: matching is natural under erasing numeric types, so C10, C12, C14 and C15 hold with
the caches in place, up to `==`, for rules that do not look at types; `C14_cached_refuted` otherwise); C12/C14 fixed points up to `==`; C18/C44 constants of nested pjit are dropped; C22 more than 52
letters; C25 append outside a loop raises, zero-iteration loops zero earlier clobber values; C26/C28 sow_cond mixed
with other modes or below nest; C31 a value planted into two calls; C32 a silent scope named
like a sown value makes plant raise; C35 joins of slices of rank 2 lose elements; C36
repeated variables and sources; C38/C39 rules wrong on part of the injective domain, reshape/convert/vector bijectors
have wrong ILDJ; C40 unreached calls, initial-style primitives, plates; C41 variable named f; C42 block does not block
scopes; C45 a zero-iteration loop resets the
variables assigned in it to zeros; C48/C60 empty Serial; C49 keyword-only and positional-only parameters; C52/C55/C59 stateless stages raise with
current JAX; C54 clip of trees raises; C57 Metropolis-Hastings ratio inverted; C61 Reshape(-1), spec of initialised
layers; C62 single BatchNorm example; C63 inner variables; C64 order of sets; C68 append
sows in scans, loops and conditionals with a predicate per example under vmap; C74 keyword arguments of a function module do not reach layers
under jit, override constants of the function, and one rng is given to every layer; a module whose jaxpr has a call primitive (nest) cannot be
evaluated where Jaxpr has no attribute jaxpr (StateModel is about the versions where it can).

## Trusted base

* Coq 8.16.1's kernel and standard library.  No axiom of our own; no kernel check switched off.
* `Print Assumptions` is run below every property theorem.  Result: theorems in `InvRules*`, `Inverse*` over reals,
  `Optix*`, `Mcmc*`, `Nn*`, `GradHarvest*` (those that mention `R`) list `ClassicalDedekindReals.sig_forall_dec`,
  `ClassicalDedekindReals.sig_not_dec`, `FunctionalExtensionality.functional_extensionality_dep` and, where integrals
  or `Coquelicot` lemmas are used, `Classical_Prop.classic`; all others are closed under the global context.  The list of
  vcheck also names `Coq.ssr.ssrunder` and `Rdefinitions`, which are opaque modules of the standard library, not axioms.
* The reading of the Python code (nothing is executed here), and of the JAX functions it calls, as cited.
* Evidence that the theorems are not vacuous: an `Example` beside each theorem, and `seeded/LOG.jsonl`, the log of
  wrong programs tried against them (`tools/mutate.py`).
