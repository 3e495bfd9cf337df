#!/usr/bin/env python3
"""Generates properties.jsonl (kept so that the list is easy to extend)."""
import json, os
P = []
def p(title, statement, quantifier, why, anchors):
    P.append(dict(id="C%02d" % (len(P)+1), title=title, statement=statement,
                  quantifier=quantifier, why_tests_cant=why, anchors=anchors))

M="oryx/experimental/matching/matcher.py"; R="oryx/experimental/matching/rules.py"
J="oryx/experimental/matching/jax_rewrite.py"; H="oryx/core/interpreters/harvest.py"
I="oryx/core/interpreters/inverse/"; PR="oryx/core/interpreters/propagate.py"
PPL="oryx/core/ppl/transformations.py"; EH="oryx/core/ppl/effect_handler.py"
ST="oryx/core/state/"; OX="oryx/experimental/optimizers/optix.py"
MC="oryx/experimental/mcmc/kernels.py"; AC="oryx/experimental/autoconj/"; NN="oryx/experimental/nn/"

# ---------------------------------------------------------------- matcher
p("match, is_match and match_all agree",
  "match(p,e) returns exactly the first bindings that match_all(p,e) would yield, raises MatchError exactly when match_all(p,e) terminates without yielding, and is_match(p,e) is True exactly when match_all yields at least one result; a top-level Star is rejected with ValueError by all three.",
  "every pattern built from literals, strings, sequences, dicts, Var (with restrictions), Not, Choice, Star/Plus/Segment, and every expression",
  "patterns and expressions are unbounded trees; agreement of three front ends on lazily produced, possibly failing searches cannot be enumerated",
  [M+":match", M+":is_match", M+":match_all"])
p("Soundness of matching: bindings really make the pattern fit",
  "Every bindings dictionary yielded by match_all(p,e) makes e an instance of p: reading each Var/Star/Choice name in p as its value in that dictionary, e satisfies the declarative meaning of p (literals equal, sequences split into consecutive pieces, restrictions hold, Not-patterns have no match).",
  "every pattern without accumulate-lists and without name reuse by Choice, every expression, every yielded bindings",
  "backtracking with continuations has unboundedly many control paths; a wrong slice boundary only shows for particular nestings",
  [M+":matcher", M+":sequence_matcher", M+":Star.match", M+":Var.match"])
p("Completeness of matching: no solution is missed",
  "For patterns without Choice, if some bindings dictionary extending the initial one makes e an instance of p, then match_all(p,e) yields a dictionary that agrees with it on all names of p; in particular match does not raise MatchError.",
  "every Choice-free, Not-free pattern without accumulate-lists, every expression, every candidate bindings",
  "a universally quantified 'no solution exists' statement cannot be tested by examples",
  [M+":Star.match", M+":sequence_matcher"])
p("A name is bound once and consistently",
  "While a pattern (with Var, Star, sequences, dicts, Not) is matched, bindings are only ever extended: a name that already has a value keeps it, so every occurrence of the same Var name in the pattern matched an equal expression. A named Choice that re-uses an already bound name must respect the earlier value too.",
  "every pattern, expression, initial bindings and yielded result",
  "holds for every path of the search; a single overwriting path (e.g. through Choice names) breaks it",
  [M+":Var.match", M+":Choice.match", M+":Star.match"])
p("Ground patterns match exactly the equal expression",
  "A pattern containing no Var/Star/Choice/Not matches an expression iff the expression is equal to it under Python equality; for strings this holds although the string matcher recurses through one-character strings, and it yields exactly one (unchanged) bindings.",
  "every ground pattern (ints, strings, tuples, lists, dicts, nested) and every expression",
  "string/sequence recursion is over arbitrary lengths and mixed container types",
  [M+":str_matcher", M+":sequence_matcher", M+":dict_matcher"])
p("Star explores every split, in the documented order",
  "A Star (Plus) followed by the rest of a sequence pattern tries every prefix length from 0 (1) to the sequence length; a non-greedy Star yields results in order of increasing, a greedy one in order of decreasing segment length; Plus never matches an empty segment and a named Star binds exactly the segment it consumed.",
  "every element pattern, sequence length, greedy/plus flag and continuation pattern",
  "all lengths and all continuations; off-by-one in the slice range only appears at the extremes",
  [M+":Star.match", M+":Plus", M+":Segment"])
p("Not succeeds exactly on non-matches and leaks nothing",
  "Not(p) yields the incoming bindings, once and unchanged, exactly when p yields no match under those bindings, and otherwise yields nothing.",
  "every pattern p, expression, bindings and continuation",
  "requires knowing that p has no match at all",
  [M+":Not.match"])
p("Choice commits to the first alternative that leads to success",
  "Choice(p1..pn) yields exactly all results of the first alternative for which the alternative together with everything that follows it in the enclosing pattern succeeds; earlier alternatives contribute nothing and later ones are not tried.",
  "every list of alternatives, expression, bindings and continuation",
  "quantifies over what all other alternatives would do",
  [M+":Choice.match"])
# ---------------------------------------------------------------- rules
p("make_rule rewrites matches and leaves non-matches alone",
  "make_rule(p,h)(e) is h applied to the first match of p against e, and is e itself if p does not match e.",
  "every pattern, handler and expression", "ranges over all handlers and expressions",
  [R+":make_rule"])
p("A rule is a function of its input, whatever was rewritten before",
  "Calling the same rule object on the same expression gives the same answer regardless of which other expressions the rule was called on before (the memo cache is invisible).",
  "every call history and every expression", "bugs need a particular earlier call; histories are unbounded",
  [R+":make_rule (functools.lru_cache)"])
p("rule_list applies the first rule that changes the expression; in_order applies all",
  "rule_list(r1..rn)(e) equals ri(e) for the least i with ri(e) != e, and e if there is none; in_order(r1..rn)(e) = rn(...(r1(e))).",
  "every list of rules and every expression", "all lists of arbitrary rules",
  [R+":rule_list", R+":in_order"])
p("iterated stops only at a fixed point",
  "If iterated(r)(e) returns x then r(x)==x and x is reached from e by finitely many applications of r; if some finite number of applications of r to e reaches a fixed point then iterated(r) returns it; otherwise it never returns.",
  "every rule and expression, any number of iterations", "unbounded iteration; non-termination",
  [R+":iterated"])
p("bottom_up and top_down reach every subexpression",
  "bottom_up(r) rewrites all children before the parent and visits every node exactly once; rewrite_subexpressions(r) touches exactly the direct children; top_down(r) rewrites the root first and then the children of the result. All preserve the container type, arity and dict keys of nodes that r leaves alone.",
  "every rule and every expression tree", "all trees and all rules",
  [R+":bottom_up", R+":top_down", R+":rewrite_subexpressions", R+":tree_map"])
p("term_rewriter returns a normal form",
  "If term_rewriter(rules)(e) returns x, then no rule changes any subexpression of x.",
  "every set of rules and every expression for which it returns", "quantifies over every subexpression and every rule set",
  [R+":term_rewriter"])
p("term_rewriter preserves meaning and terminates on decreasing rules",
  "If every rule preserves some compositional meaning of expressions then so does term_rewriter; and if every change made by a rule strictly decreases a size compatible with contexts, term_rewriter terminates on every expression.",
  "every semantics, rule set and expression", "unbounded trees and iteration counts",
  [R+":term_rewriter", R+":iterated", R+":bottom_up", R+":rule_list"])
# ---------------------------------------------------------------- jax_rewrite
p("Converting a function to an expression and evaluating it back is the identity",
  "rewrite(f, identity)(args) returns the same outputs as f(args): the expressions built from f's jaxpr evaluate, in the environment binding the argument names (and captured constants), to exactly what executing the jaxpr equations in order gives, including multi-output primitives, literals, shadowed names and nested call/jit bodies.",
  "every jaxpr (any number of equations, nesting depth, outputs) and all argument values",
  "programs are unbounded; sharing is expanded into trees",
  [J+":jaxpr_to_expressions", J+":evaluate", J+":rewrite", J+":BoundExpression.evaluate", J+":CallPrimitive.evaluate"])
p("Meaning-preserving rules preserve functions",
  "If a rule never changes the value of any expression in any environment then rewrite(f, rule) (also with rule lifted by bottom_up/term_rewriter) computes the same function as f.",
  "every function, argument, and meaning-preserving rule", "all programs and all rules",
  [J+":rewrite", R+":bottom_up", R+":term_rewriter"])
p("Nested jitted functions with captured constants survive rewriting",
  "rewrite(f, identity) also reproduces f when a jitted function called inside f closes over array constants.",
  "every function with nested jit bodies, with or without closed-over constants", "depends on an internal representation choice for constants at any nesting depth",
  [J+":jaxpr_to_expressions (pjit branch)"])
# ---------------------------------------------------------------- autoconj
p("compose_einsums computes the nested einsum",
  "The single einsum returned by compose_einsums on (parent formula, left args, child einsum, right args) has, for all operand values, the same value as evaluating the child einsum and passing its result to the parent einsum; mismatched ranks raise ValueError.",
  "every parent/child formula within the 52-letter budget, every axis size, every operand value over a commutative semiring",
  "all formulas with all coincidences of index letters (name capture!) and all shapes",
  [AC+"einsum.py:compose_einsums"])
p("Linear primitives equal the einsums they are rewritten to",
  "transpose, squeeze, reduce_sum and dot_general (any contracting and batch dimensions) have the same value as the Einsum that the canonicalization rules replace them with.",
  "every rank up to the letter budget, permutation, axis set, dimension numbers, shape and operand value",
  "all dimension-number combinations and all shapes",
  [AC+"canonicalize.py:transpose_as_einsum", AC+"canonicalize.py:dot_as_einsum", AC+"canonicalize.py:squeeze_as_einsum", AC+"canonicalize.py:reduce_sum_as_einsum"])
p("AddN flattening preserves sums",
  "add_to_addn and addn_of_addn_to_addn preserve the value of the expression, for every nesting of additions.",
  "every operand list (non-empty child) and operand value in a commutative monoid", "all arities and nestings",
  [AC+"addn.py:AddN", AC+"canonicalize.py:add_to_addn", AC+"canonicalize.py:addn_of_addn_to_addn"])
p("canonicalize preserves the value of an expression",
  "If canonicalize(e) returns e' then e' evaluates to the same value as e in every environment in which e evaluates.",
  "every expression built from add, transpose, squeeze, reduce_sum, dot_general, Einsum, AddN and opaque leaves", "unbounded rewriting sequences over unbounded trees",
  [AC+"canonicalize.py:canonicalize"])
# ---------------------------------------------------------------- harvest
p("sow is the identity and reaping does not change outputs",
  "Without a harvest transformation sow(x)==x; and call_and_reap(f)(x)[0]==f(x) whenever reaping succeeds, for every mode, tag and control-flow nesting.",
  "every program (straight-line, calls, nest, scan, while, cond) and input", "all programs and inputs",
  [H+":sow", H+":call_and_reap", H+":ReapContext"])
p("reap returns exactly the matching sows",
  "reap(f,tag,allowlist,blocklist)(x) is the dictionary with one entry per name sown with that tag and passing the lists, mapped to its (mode-determined) value, and nothing else.",
  "every program, input, tag and filter", "all programs and filters",
  [H+":ReapContext.handle_sow", H+":HarvestContext.process_sow"])
p("Repeated names: strict errors, clobber keeps the last, append collects",
  "Sowing a name twice under one tag and scope raises if either is strict; with clobber the last value is kept; with append all values are collected in order.",
  "every sequence of sows", "all interleavings of names and modes",
  [H+":ReapContext.handle_sow"])
p("sow_cond keeps the last value whose predicate held, else zeros",
  "For a name sown with sow_cond any number of times (possibly after clobber sows), the reaped value is the one from the last sow that took effect (predicate true, or clobber), and zeros if none did.",
  "every sequence of predicates and values, at top level, in scan, while, cond and nest", "unbounded sequences, mixing of modes",
  [H+":sow_cond", H+":ReapContext.handle_sow", H+":call_and_reap", H+":_update_clobber_carry"])
p("Tags are isolated",
  "Harvesting tag t neither reads nor alters sows of other tags: they stay visible to an outer harvest of their own tag with the same names and values, unless exclusive=True, in which case they are dropped.",
  "every program, pair of tags and filter settings", "all programs",
  [H+":HarvestContext.process_sow"])
p("reap through scan",
  "Reaping a scan gives, for every append name, the stacked per-iteration values in iteration order and, for every clobber/cond_clobber name, the value of the last (effective) iteration; strict names raise; carry and outputs are unchanged; this holds for any combination of modes in one body.",
  "every loop body, length, reverse flag, initial carry, inputs, and mixture of modes", "all iteration counts and mode mixtures",
  [H+":_reap_scan_rule", H+":_update_clobber_carry"])
p("reap through while and cond",
  "Reaping a while loop gives the last iteration's clobber values (last effective one for cond_clobber; zeros if the body never ran) and rejects other modes; reaping a cond gives the values of the taken branch and rejects branches whose sow names differ.",
  "every loop, iteration count, predicate and branch", "unbounded iteration",
  [H+":_reap_while_rule", H+":_reap_cond_rule", H+":_check_branch_metadata"])
p("nest scopes names",
  "Reaping nest(f,scope=s) gives {s: reap(f)} (and no entry if f sows nothing); planting {s: d} into nest(f,scope=s) is planting d into f; equal names in different scopes do not collide.",
  "every program, scope and nesting depth", "all nestings",
  [H+":nest", H+":ReapContext.process_nest", H+":PlantContext.process_nest"])
p("plant overrides exactly the named sows",
  "plant(f)(plants,x) behaves like f in which every sow of the tag whose name is in plants returns the planted value and all other sows behave as before; planting the same strict name twice raises.",
  "every program, plants dictionary, filter and input", "all programs and plants",
  [H+":PlantContext.handle_sow", H+":plant", H+":_plant_scan_rule", H+":_plant_while_rule", H+":_plant_cond_rule"])
p("Planting what was reaped reproduces the run",
  "If reap(f)(x)=r for a program whose sows are strict (or append in scans), then plant(f)(r,x)=f(x).",
  "every such program and input", "all programs, loop counts",
  [H+":plant", H+":reap"])
p("harvest = plant then reap; nothing remains to be harvested",
  "harvest(f)(plants,x) returns f's output under the plants together with the reaps of exactly the non-planted names, and harvesting the result again with the same tag plants and reaps nothing.",
  "every program, plants and filters", "all programs",
  [H+":harvest"])
# ---------------------------------------------------------------- inverse / propagate
p("Slice concatenation reconstructs the array",
  "If two NDSlices describe parts of one array and can_concatenate holds, concatenate describes the union region with the right values and ILDJs at every index, and a full-range slice is the array.",
  "every rank, dimension, slice bounds and array contents", "all ranks and shapes",
  [I+"slice.py:NDSlice.concatenate", I+"slice.py:NDSlice.can_concatenate"])
p("Joining cells never loses or invents information",
  "Joining two cells whose slices describe parts of the same array gives a cell whose slices describe parts of that array and cover every index either cell covered.",
  "every rank, every pair of slice sets of one array", "all geometric configurations of hyper-rectangles",
  [I+"core.py:InverseAndILDJ.join", I+"core.py:InverseAndILDJ.__lt__", I+"slice.py:NDSlice.__lt__"])
p("propagate is independent of the processing order",
  "For rules that are monotone, extensive and locally idempotent, propagate terminates on finite-height cells and returns the least environment above the initial cells that is stable under every equation's rule, whatever order the work-queue (built from unordered sets) uses.",
  "every jaxpr graph, rule set, initial cells and every queue order/hash seed", "hash-order schedules; all graphs",
  [PR+":propagate", PR+":update_queue_state", PR+":construct_graph_representation"])
p("inverse undoes the function",
  "If inverse(f)(f(x)) returns without error then it returns x, for any schedule, for functions built from registered invertible primitives (applied inside their domains) and forward-evaluated side computations; an under-determined input raises ValueError instead of returning.",
  "every straight-line program over registered primitives, every input, every propagation order", "all programs, inputs and schedules",
  [I+"core.py:inverse_and_ildj", I+"core.py:register_elementwise", I+"core.py:register_binary", I+"core.py:default_rule"])
p("Registered inverse rules are inverses with the right log-derivative",
  "For every registered elementwise/binary primitive (exp, log, sin, cos, expm1, log1p, neg, sqrt, integer_pow, pow, add, sub, mul, div, logit, expit, softplus), on its stated domain the rule's inverse value inverts the primitive and the added ILDJ equals log|d inverse/dy|.",
  "all real inputs in the domain", "real-valued identities over continuous domains",
  [I+"rules.py:*_left/*_right", I+"rules.py:integer_pow_inverse", I+"rules.py:expit_ildj", I+"rules.py:softplus_ildj"])
p("ildj obeys the change-of-variables formula",
  "For a unary function built by composing registered elementwise and binary-with-constant primitives, ildj(f)(y) = log|(f^-1)'(y)|; inserting shape-only operations (reshape) or dtype conversions does not change it.",
  "every composition length, every point of the domain", "all compositions and points",
  [I+"core.py:inverse_and_ildj", I+"rules.py:reshape_ildj", I+"rules.py:convert_element_type_ildj"])
p("log_prob is the sum of sample log-probabilities plus ILDJ corrections, or an error",
  "log_prob(f)(y) equals the sum over all random samples in f of their log density at the values that y determines, plus the ILDJ terms; it raises ValueError if the value of any sample is not determined by y, and never silently omits a sample.",
  "every program with registered sampling primitives and invertible deterministic code", "all programs",
  ["oryx/core/interpreters/log_prob.py:log_prob_jaxpr", "oryx/distributions/distribution_extensions.py:random_variable_log_prob_rule"])
# ---------------------------------------------------------------- ppl
p("intervene and conditional fix variables",
  "intervene(f,x=v) behaves as f with the sample site x replaced by v and x no longer appears in joint_sample; conditional(f,names)(key,...,vals) = intervene(f, **dict(zip(names,vals)))(key,...).",
  "every program, set of names and values", "all programs",
  [PPL+":intervene", PPL+":conditional"])
p("block, joint_sample and trace",
  "trace(f)(key) returns f(key) together with joint_sample(f)(key); block(f,names) has the same output as f and its joint_sample is that of f without those names.",
  "every program and name set", "all programs",
  [PPL+":block", PPL+":trace", PPL+":joint_sample"])
p("graph_replace re-roots the program",
  "graph_replace(f,inputs,outputs)(key,*vals) returns the values the output names take when the inputs are fixed to vals, and the remaining latents (and only those) stay visible to joint_sample.",
  "every program, input and output names", "all programs",
  [PPL+":graph_replace"])
p("Effect handlers: no handlers means no effect",
  "make_effect_handler({})(f)(s,x) = (f(x), s); handlers are invoked exactly once per executed occurrence of their primitive, in program order, threading the state, and inside nested call/jit bodies as if inlined.",
  "every jaxpr, handler table and initial state", "all programs and handlers",
  [EH+":eval_jaxpr_with_state", EH+":make_effect_handler", EH+":_pjit_effect_handler_rule"])
# ---------------------------------------------------------------- state
p("call_and_update is pure and keeps the variable set",
  "call_and_update(m,x) never changes m; the updated module has exactly the same variable names, assigned names hold the last assigned value, other variables are unchanged, and an assign without a declared variable raises; call and update are its two projections.",
  "every stateful function and every sequence of calls", "unbounded call histories",
  [ST+"function.py:FunctionModule.call_and_update", ST+"module.py:assign", ST+"api.py:call"])
p("init of a stateful function agrees with running it",
  "For m=init(f)(key,x): m.variables() are the values f declares when run with key; m.call(x') equals f run with those variables in place of the declared initial values.",
  "every stateful function, key and inputs", "all programs",
  [ST+"function.py:function_init"])
p("Lists compose, tuples fan out",
  "call_and_update of a list of modules is function composition left to right with every module updated once; of a tuple it applies every module to the same input; structure and length are preserved.",
  "every list/tuple (any length, any nesting) of modules and any input", "all nestings",
  [ST+"registrations.py:list_call_and_update", ST+"registrations.py:tuple_call_and_update"])
p("Modules round-trip through flatten/unflatten and serialize/deserialize",
  "unflatten(flatten(m)) behaves identically to m (same variables, call, name), for function modules, layers and Serial stacks of any depth; deserialize(serialize(m)) likewise given a lossless pickle.",
  "every module and layer tree", "all module trees",
  [ST+"function.py:FunctionModule.flatten", "oryx/core/serialize.py", NN+"base.py:Layer.flatten", NN+"combinator.py:Serial.flatten"])
# ---------------------------------------------------------------- utilities
p("filter_kwargs keeps exactly the accepted keywords",
  "filter_kwargs(func,kw) returns exactly the entries of kw that func accepts as keyword arguments, so func(**filter_kwargs(func,kw)) never fails with an unexpected keyword and never loses an accepted one; check_in_kwargs(func,k) is True iff k would be kept.",
  "every signature (positional, defaulted, keyword-only, **kwargs) and every dictionary", "all signatures",
  ["oryx/core/kwargs_util.py:filter_kwargs", "oryx/core/kwargs_util.py:check_in_kwargs"])
p("tie_in and tie_all are identities",
  "tie_in(x,y)==y and tie_all(*xs)==xs for all pytrees, including trees with no leaves.",
  "every pytree", "all trees",
  ["oryx/core/primitive.py:tie_all", "oryx/core/primitive.py:tie_in"])
p("Dynamic contexts behave as a per-trace stack",
  "get_dynamic_context returns the innermost context entered and not yet exited for the current trace state, raises when there is none, and entering/exiting (normally or by exception) contexts of one trace state never affects another; after all contexts are exited the table is as before.",
  "every well-nested sequence of enter/exit/raise over several trace states", "unbounded histories",
  ["oryx/core/trace_util.py:new_dynamic_context", "oryx/core/trace_util.py:get_dynamic_context"])
# ---------------------------------------------------------------- optimizers
p("Optimizer state evolves as documented",
  "Over any sequence of gradients: sgd with momentum produces updates -lr*sum decay^(n-i) g_i (nesterov: one further decay step), scale_by_schedule uses the 0-based step number, scale_by_adam's bias-corrected first moment is the weighted average of the gradients with weights summing to one.",
  "every number of steps, gradient sequence and hyper-parameter", "unbounded step counts over the reals",
  [OX+":trace", OX+":sgd", OX+":scale_by_schedule", OX+":scale_by_adam"])
p("apply_every emits exactly every k-th step",
  "apply_every(k) returns zero except on steps k-1, 2k-1, ..., where it returns the sum of the last k updates.",
  "every k>=1, number of steps and gradient sequence", "unbounded",
  [OX+":apply_every"])
p("Clipping bounds updates",
  "clip(d) maps every leaf of the update tree into [-d,d] elementwise, keeping the tree structure; clip_by_global_norm(m) returns the updates unchanged if their global norm is below m and otherwise scales them to norm exactly m.",
  "every update pytree and bound", "all trees and reals",
  [OX+":clip", OX+":clip_by_global_norm"])
p("chain composes updates serially with private state",
  "chain(u1..un) feeds the output of each update function to the next, and each keeps its own state across steps independent of the others even if they use the same variable names.",
  "every list of update functions and every gradient history", "unbounded histories",
  [OX+":chain", OX+":optimize", OX+":gradient_descent"])
# ---------------------------------------------------------------- mcmc
p("Metropolis satisfies detailed balance",
  "With a symmetric proposal, metropolis accepts with probability min(1, pi(y)/pi(x)), so pi(x)P(x,y)=pi(y)P(y,x) and pi is stationary.",
  "every target density, symmetric proposal and pair of states", "a distributional identity",
  [MC+":metropolis"])
p("Metropolis-Hastings satisfies detailed balance for asymmetric proposals",
  "metropolis_hastings accepts with probability min(1, pi(y)q(y->x)/(pi(x)q(x->y))), so pi is stationary for any proposal.",
  "every target, proposal and pair of states", "a distributional identity; symmetric test proposals hide a swapped ratio",
  [MC+":metropolis_hastings"])
p("The leapfrog integrator is reversible",
  "Running n leapfrog steps, negating the momentum and running n steps again returns to the start with negated momentum, for any log density and step size.",
  "every n, gradient function, step size and state", "all n and potentials",
  [MC+":hmc"])
p("sample_chain returns the iterates of the kernel",
  "sample_chain(kernel,n)(key,state) returns exactly the n states obtained by iterating the kernel with its own evolving state on the split keys, and the stored kernel state is the one after step n.",
  "every kernel, n and initial state", "all n",
  [MC+":sample_chain"])
# ---------------------------------------------------------------- nn
p("Serial is composition and threads rng and state",
  "Serial([l1..ln]) applies the layers in order, gives each its own sub-key, updates each layer's state once; (a>>b) behaves as Serial([a,b]).",
  "every list of layers and input", "all nestings",
  [NN+"combinator.py:Serial._call_and_update", NN+"base.py:Template.compose"])
p("Layer specs predict output shapes",
  "spec of Dense/Flatten/Reshape/Pooling/Conv/Serial equals the shape of the output produced by calling the layer on an input of that shape.",
  "every shape and layer hyper-parameter", "all shapes",
  [NN+"core.py:Dense.spec", NN+"reshape.py", NN+"pooling.py:Pooling.spec", NN+"convolution.py:conv_info", ST+"registrations.py:list_spec"])
p("BatchNorm moving statistics are exponential averages",
  "After any number of updates the moving mean/variance are the exponentially weighted averages of batch statistics with weights (momentum) summing to one together with the initial value, and evaluation mode normalises with them and does not depend on the batch.",
  "every batch history and momentum", "unbounded histories",
  [NN+"normalization.py:BatchNorm._update_axis", NN+"normalization.py:BatchNorm._call_batched"])

# ---------------------------------------------------------------- appended later
p("random_variable tags the output of a program and keeps its inner variables",
  "random_variable(f, name=n) has the output of f, and its joint_sample/trace contains that output under n together with the named variables of f.",
  "every program f and name", "nested programs of every shape; the repository's tests only tag functions without inner variables",
  [PPL+":function_random_variable", PPL+":random_variable", PPL+":joint_sample"])
p("Whether inverse succeeds does not depend on the order of sets",
  "If inverse(f)(y) returns under one iteration order of the sets of equations used by the propagation, it returns the same under every other order.",
  "every program, output and iteration order", "iteration orders of Python sets depend on hashes and addresses and cannot be chosen by a test",
  [I+"core.py:inverse_and_ildj", I+"bijector_extensions.py:bijector_ildj_rule", PR+":propagate"])

p("canonicalize brings every expression into canonical form",
  "No subexpression of the result of canonicalize(e) is a transpose, squeeze, reduce_sum or dot_general, a plain addition, an Einsum with an Einsum among its operands or an AddN with an AddN among its operands.",
  "every expression, primitive and history of earlier calls (rule caches)", "expressions of every size and nesting, and rewrites whose results enable further rewrites in any order",
  [AC+"canonicalize.py:canonicalize", AC+"canonicalize.py:CANONICALIZATION_RULES"])

p("constrain is the change of variables formula",
  "constrain(f)(target)(x) equals target(f(x)) plus the sum over the elements of x of log |f'(x)|, so that sampling in the unconstrained space has the right target density; and constraining with a composition is constraining twice.",
  "every invertible elementwise composition f of registered primitives, every array of any shape in the domain, every target and every schedule of the propagation", "all functions and all real points; the iteration order of sets cannot be chosen by a test",
  ["oryx/experimental/mcmc/utils.py:constrain", I+"core.py:ildj", I+"rules.py"])

p("log_prob of a vmapped random variable is the sum over its instances",
  "If a random variable of a distribution is drawn under any nesting of vmaps (over keys and parameters), sampling gives at each index the draw of that instance, and log_prob of the mapped program at a value is the sum over all indices of the log-probability of the instance's distribution at the instance's part of the value.",
  "every nesting of vmaps, in_axes, distribution and value", "nestings and combinations of mapped and unmapped parameters are unbounded; the repository tests single vmaps",
  ["oryx/distributions/distribution_extensions.py:random_variable_batching_rule", "oryx/distributions/distribution_extensions.py:random_variable_log_prob_rule"])

p("Harvesting a vmapped function is harvesting every example",
  "Reaping, planting or harvesting vmap(f) over k examples gives what reaping, planting or harvesting f gives on every example: the outputs in order, and reaped values with a leading axis of length k whose index i holds the value reaped from example i; batched plants are planted example by example; it raises exactly when f on some example raises.",
  "every function with sows, nests, calls and scans, every tag and filter, number of examples, arguments and plants", "programs, nestings of scopes and loops, and numbers of examples are unbounded; the repository tests single sows under vmap",
  ["oryx/core/interpreters/harvest.py:_sow_batch_rule", "oryx/core/interpreters/harvest.py:call_and_reap", "oryx/core/interpreters/harvest.py:plant", "oryx/core/interpreters/harvest.py:harvest"])

p("get_summaries returns exactly the summaries",
  "summary(v, name=n) returns v; get_summaries(f)(x) returns f(x) together with the dictionary of exactly the summaries that f records (last value for 'clobber', all values of a loop for 'append', a dictionary for a nest), the same that call_and_reap(f, tag='summary') returns; it raises exactly when f records a name twice in one scope with a mode that forbids it, or in a loop or branch with a mode that is not allowed there. No summary is left for an outer get_summaries, and values sown with other tags are left for transformations of those tags.",
  "every function, placement of summaries in scopes, calls, loops and branches, modes and inputs", "programs and loop counts are unbounded",
  ["oryx/util/summary.py:summary", "oryx/util/summary.py:get_summaries", "oryx/core/interpreters/harvest.py:harvest"])

p("Sows are transparent to differentiation, and derivatives to harvesting",
  "jvp(f) is the same with and without the sows and nests in f; reaping jvp(f) at (x, dx) gives jvp(f)(x, dx) together with what reaping f gives at x, and raises exactly when reaping f does; planting into jvp(f) gives as primal output that of plant(f), where the tangent of a planted value is the tangent of the value it replaces.",
  "every function with sows, nests, calls, scans, while loops and conditionals, every point and direction, tag, filter and plants", "programs, points and directions are unbounded; the repository differentiates through single sows only",
  ["oryx/core/interpreters/harvest.py:_sow_jvp", "oryx/core/interpreters/harvest.py:call_and_reap", "oryx/core/interpreters/harvest.py:plant"])

p("log_prob of a plate sums over the named axis",
  "plate(f) run under a named axis of N instances runs f on every instance with the key fold_in(key, index of the instance); log_prob of plate(f), on every instance, is the sum over all instances of the log-probability of f at the instance's value and arguments.",
  "every program f of samples, calls, plates and invertible code, every size of the axis, every value and every schedule of the propagation", "the size of the axis, the programs and the schedules are unbounded; the repository tests one distribution",
  ["oryx/core/ppl/plate_util.py:make_plate", "oryx/core/ppl/plate_util.py:plate_log_prob_rule", "oryx/core/interpreters/log_prob.py:log_prob_jaxpr"])

p("Every nn layer computes its documented function",
  "Dense returns x @ kernel + bias; Relu, Tanh, Softplus act on every element; Softmax gives positive numbers that sum to one over the last axis in the proportions exp(x_i - x_j), and LogSoftmax its logarithm; Dropout is the identity in evaluation, and in training keeps each element with the mask of its key, divided by the rate (so that the mean over masks is the input), and raises without a key; Flatten and Reshape keep the elements in row-major order; pooling gives for every window and channel the maximum, sum or mean of the elements the window covers (padding is never counted); Conv and Deconv are the correlation of the (padded, dilated) image with the kernel plus the bias.",
  "every shape, parameter, window, stride, padding, input and key", "shapes and real inputs are unbounded; the repository tests output shapes and a few values",
  ["oryx/experimental/nn/core.py:Dense", "oryx/experimental/nn/core.py:Dropout", "oryx/experimental/nn/core.py:Softmax", "oryx/experimental/nn/reshape.py:Reshape", "oryx/experimental/nn/pooling.py:Pooling", "oryx/experimental/nn/convolution.py:Conv", "oryx/experimental/nn/convolution.py:Deconv"])

p("A layer mapped over a batch treats every example as if alone",
  "vmap of a layer's call_and_update over examples (axis 0) gives, for every example, the output and the updated layer that the layer gives for that example with its own key; with BatchNorm layers the batch is dispatched to the batched methods, and in evaluation mode every example still gets the output that it gets alone; the mapped call succeeds when the layer fits one example, with the number of examples in front of the predicted shape.",
  "every network of the library's layers, reached by any initialisation and history of single and batched calls, every number of examples, inputs and keys", "networks, histories and batch sizes are unbounded; the repository maps single layers over two or three examples",
  ["oryx/experimental/nn/base.py:custom_layer_cau_batch", "oryx/experimental/nn/base.py:_layer_cau_batched", "oryx/experimental/nn/normalization.py:BatchNorm"])

p("Keyword arguments of a stateful module reach its layers",
  "A module that init made from a function, called with keyword arguments, does what the function itself does when it is called with those arguments on top of the arguments of init, provided the function hands them on to its layers under their names (or calls layers that do not look at them); without keyword arguments the module evaluates as JAX does; a call keeps the names of the variables, changes exactly the assigned ones, and assigning an undeclared one raises ValueError.",
  "every function of layer calls, primitives, call primitives, jit/scan/... and Python branches, every values of its variables, arguments and keywords, every history of calls", "functions, keywords and histories are unbounded; the repository tests one Dropout network",
  ["oryx/core/state/function.py:eval_jaxpr_with_kwargs", "oryx/core/state/function.py:FunctionModule", "oryx/experimental/nn/function.py:layer_cau_kwargs_rule"])

p("Derivatives of reaped values and with respect to planted values are the true ones",
  "jax.jvp of reap(f), plant(f) and harvest(f) computes derivatives: along every curve through the arguments and the planted values, with the given velocity, the outputs and the reaped values move with the returned tangents (a clobbered name with the tangent of the stored value, an appended name with the stacked tangents, a name that was not stored with tangent zero); the primal results are those of reap(f), plant(f), harvest(f), which also decide whether it raises; reaping does not change the outputs' tangents, and jvp(reap(f)) returns whenever jvp(f) does.",
  "every function of differentiable parts, sows, nests, calls, scans, while loops and conditionals whose predicates do not change near the point (custom_jvp/custom_vjp functions: without sows), every tag, filter and plants, every point, curve and direction", "functions, points and directions are unbounded, and a derivative is a limit; the repository differentiates one reaped function",
  ["oryx/core/interpreters/harvest.py:call_and_reap", "oryx/core/interpreters/harvest.py:reap_function", "oryx/core/interpreters/harvest.py:plant", "oryx/core/interpreters/harvest.py:harvest", "oryx/core/interpreters/harvest.py:_sow_jvp"])

p("A custom inverse is used, and its automatic ILDJ is the true log-derivative",
  "The rule given to def_inverse_and_ildj is called once, with the known arguments, None for the unknown ones, the output and its ILDJ, and its answer is what inverse and ildj return; NonInvertibleError from it makes them raise. def_inverse_unary(f_inv, f_ildj) overrides the automatic inverse. def_inverse_unary(f_inv) alone gives as ILDJ log |f_inv'|, obtained by inverting f_inv, for f_inv composed of operations whose inverses are themselves registered; compositions of registered operations and custom functions obey the change of variables formula.",
  "every custom rule, every f_inv composed of registered operations, every composition, array shape, real point of the domains, schedule and set order", "functions, points and schedules are unbounded, and the correctness of an ILDJ is a statement about derivatives; the repository tests a few functions at single points",
  [I+"custom_inverse.py:CustomInverse.def_inverse_unary", I+"custom_inverse.py:CustomInverse.def_inverse_and_ildj", I+"core.py:inverse_and_ildj", I+"rules.py"])

p("Canonicalizing a function keeps its values",
  "rewrite(f, canonicalize) traces f into expressions, canonicalizes them and evaluates the result: at every argument at which f returns, the rewritten function returns the same arrays (in exact arithmetic), whatever was canonicalized before; it always comes to an end.",
  "every function traced to a jaxpr of linear operations, additions, other primitives (with one or several results), literals, constants and nested jit calls, every argument, every history of the rules' caches", "functions, arguments and histories are unbounded; the repository tests canonicalize on a handful of expressions and rewrite with other rules",
  ["oryx/experimental/autoconj/canonicalize.py:canonicalize", J+":rewrite", J+":jaxpr_to_expressions", J+":make_bound_expression"])

p("Harvesting functions with custom derivative rules",
  "reap(f) of a function that calls jax.custom_jvp functions returns what it would return with their bodies written in place; plant(f) does too, and raises the same errors. jax.jvp(reap(f)) has the outputs and tangents of jax.jvp(f); the values it reaps are those sown by the code that jvp runs, i.e. by the derivative rules in place of the functions with rules (whose own sows are lost), and a value sown only in rules is reaped with tangent zero.",
  "every function of differentiable parts, nests, core calls and custom_jvp functions (in straight-line code, nests and core calls), every rule, tag, filter, plants, point and tangent", "functions, rules and inputs are unbounded; the repository tests four small functions",
  ["oryx/core/interpreters/harvest.py:HarvestTrace.process_custom_jvp_call", "oryx/core/interpreters/harvest.py:ReapContext.process_custom_jvp_call", "oryx/core/interpreters/harvest.py:PlantContext.process_custom_jvp_call"])

p("Binding a function to a primitive does not change what it computes",
  "A function marked by custom_inverse, a bijector, a distribution, an nn layer or a plate (initial_style_bind, call_bind), or whose values pass through tie_all, returns the pytree the function itself returns, eagerly, under jit, under jvp (same primals and tangents) and under vmap (example by example), nested to any depth and closing over values of the caller; exceptions are the same too. The one difference: a marked function is traced, so it refuses (ConcretizationTypeError, TypeError) to branch on an array or a positional argument and to take or return objects that are no arrays; keyword arguments of initial_style_bind stay Python values, call_bind needs a function with a name.",
  "every function over pytrees with primitives, branches, closures, keyword arguments, nested marked functions and tie_all, every JVP and batching rules that agree with the primitives, every input", "functions, nestings and transformations are unbounded; the repository tests a handful of one-line functions",
  ["oryx/core/primitive.py:call_bind", "oryx/core/primitive.py:initial_style_bind", "oryx/core/primitive.py:FlatPrimitive", "oryx/core/primitive.py:InitialStylePrimitive", "oryx/core/primitive.py:tie_all", "oryx/core/trace_util.py:stage"])

p("Gradients see through sows, and gradients of reaped values are the true ones",
  "jax.vjp (jax.grad) of a function with sows, scopes and core calls returns the values, cotangents and errors of the function without them, and its pullback is the transpose of jax.jvp. jax.vjp(reap(f)) returns what reap(f) returns, and its pullback sends cotangents of the outputs and of the reaped values (missing names count as zero) to the gradient of the sum of their products: the one that the velocities of the outputs and the reaped values along every curve determine. The same holds of plant(f) and harvest(f), where a planted value receives the cotangent of the value it replaces and that value receives zero; plant(jax.vjp(f)) instead returns what plant(f) returns and runs f's pullback, sows included, at the planted residuals. Reaping does not replace jax.custom_vjp rules: with the reaped values unused the gradient is exactly that of f. reap(jax.vjp(f)) returns what vjp(f) returns and reaps what the forward pass sows (fwd in place of a function with a rule); cotangents are not reaped.",
  "every function of differentiable steps, sows, nests, core calls and custom_vjp functions (in straight-line code, nests, calls, conds and scans), every rule, tag, filter, point, direction and cotangent", "functions, points and cotangents are unbounded, and a gradient is a statement about derivatives; the repository differentiates two functions in reverse mode",
  ["oryx/core/interpreters/harvest.py:_sow_transpose", "oryx/core/interpreters/harvest.py:_nest_transpose_rule", "oryx/core/interpreters/harvest.py:HarvestTrace.process_custom_vjp_call", "oryx/core/interpreters/harvest.py:ReapContext.process_custom_vjp_call", "oryx/core/interpreters/harvest.py:call_and_reap"])

out = os.path.join(os.path.dirname(__file__), "..", "properties.jsonl")
with open(out, "w") as f:
    for x in P:
        f.write(json.dumps(x) + "\n")
print(len(P))
