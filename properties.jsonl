{"id": "C01", "title": "match, is_match and match_all agree", "statement": "match(p,e) returns exactly the first bindings that match_all(p,e) would yield, raises MatchError exactly when match_all(p,e) terminates without yielding, and is_match(p,e) is True exactly when match_all yields at least one result; a top-level Star is rejected with ValueError by all three.", "quantifier": "every pattern built from literals, strings, sequences, dicts, Var (with restrictions), Not, Choice, Star/Plus/Segment, and every expression", "why_tests_cant": "patterns and expressions are unbounded trees; agreement of three front ends on lazily produced, possibly failing searches cannot be enumerated", "anchors": ["oryx/experimental/matching/matcher.py:match", "oryx/experimental/matching/matcher.py:is_match", "oryx/experimental/matching/matcher.py:match_all"]}
{"id": "C02", "title": "Soundness of matching: bindings really make the pattern fit", "statement": "Every bindings dictionary yielded by match_all(p,e) makes e an instance of p: reading each Var/Star/Choice name in p as its value in that dictionary, e satisfies the declarative meaning of p (literals equal, sequences split into consecutive pieces, restrictions hold, Not-patterns have no match).", "quantifier": "every pattern without accumulate-lists and without name reuse by Choice, every expression, every yielded bindings", "why_tests_cant": "backtracking with continuations has unboundedly many control paths; a wrong slice boundary only shows for particular nestings", "anchors": ["oryx/experimental/matching/matcher.py:matcher", "oryx/experimental/matching/matcher.py:sequence_matcher", "oryx/experimental/matching/matcher.py:Star.match", "oryx/experimental/matching/matcher.py:Var.match"]}
{"id": "C03", "title": "Completeness of matching: no solution is missed", "statement": "For patterns without Choice, if some bindings dictionary extending the initial one makes e an instance of p, then match_all(p,e) yields a dictionary that agrees with it on all names of p; in particular match does not raise MatchError.", "quantifier": "every Choice-free, Not-free pattern without accumulate-lists, every expression, every candidate bindings", "why_tests_cant": "a universally quantified 'no solution exists' statement cannot be tested by examples", "anchors": ["oryx/experimental/matching/matcher.py:Star.match", "oryx/experimental/matching/matcher.py:sequence_matcher"]}
{"id": "C04", "title": "A name is bound once and consistently", "statement": "While a pattern (with Var, Star, sequences, dicts, Not) is matched, bindings are only ever extended: a name that already has a value keeps it, so every occurrence of the same Var name in the pattern matched an equal expression. A named Choice that re-uses an already bound name must respect the earlier value too.", "quantifier": "every pattern, expression, initial bindings and yielded result", "why_tests_cant": "holds for every path of the search; a single overwriting path (e.g. through Choice names) breaks it", "anchors": ["oryx/experimental/matching/matcher.py:Var.match", "oryx/experimental/matching/matcher.py:Choice.match", "oryx/experimental/matching/matcher.py:Star.match"]}
{"id": "C05", "title": "Ground patterns match exactly the equal expression", "statement": "A pattern containing no Var/Star/Choice/Not matches an expression iff the expression is equal to it under Python equality; for strings this holds although the string matcher recurses through one-character strings, and it yields exactly one (unchanged) bindings.", "quantifier": "every ground pattern (ints, strings, tuples, lists, dicts, nested) and every expression", "why_tests_cant": "string/sequence recursion is over arbitrary lengths and mixed container types", "anchors": ["oryx/experimental/matching/matcher.py:str_matcher", "oryx/experimental/matching/matcher.py:sequence_matcher", "oryx/experimental/matching/matcher.py:dict_matcher"]}
{"id": "C06", "title": "Star explores every split, in the documented order", "statement": "A Star (Plus) followed by the rest of a sequence pattern tries every prefix length from 0 (1) to the sequence length; a non-greedy Star yields results in order of increasing, a greedy one in order of decreasing segment length; Plus never matches an empty segment and a named Star binds exactly the segment it consumed.", "quantifier": "every element pattern, sequence length, greedy/plus flag and continuation pattern", "why_tests_cant": "all lengths and all continuations; off-by-one in the slice range only appears at the extremes", "anchors": ["oryx/experimental/matching/matcher.py:Star.match", "oryx/experimental/matching/matcher.py:Plus", "oryx/experimental/matching/matcher.py:Segment"]}
{"id": "C07", "title": "Not succeeds exactly on non-matches and leaks nothing", "statement": "Not(p) yields the incoming bindings, once and unchanged, exactly when p yields no match under those bindings, and otherwise yields nothing.", "quantifier": "every pattern p, expression, bindings and continuation", "why_tests_cant": "requires knowing that p has no match at all", "anchors": ["oryx/experimental/matching/matcher.py:Not.match"]}
{"id": "C08", "title": "Choice commits to the first alternative that leads to success", "statement": "Choice(p1..pn) yields exactly all results of the first alternative for which the alternative together with everything that follows it in the enclosing pattern succeeds; earlier alternatives contribute nothing and later ones are not tried.", "quantifier": "every list of alternatives, expression, bindings and continuation", "why_tests_cant": "quantifies over what all other alternatives would do", "anchors": ["oryx/experimental/matching/matcher.py:Choice.match"]}
{"id": "C09", "title": "make_rule rewrites matches and leaves non-matches alone", "statement": "make_rule(p,h)(e) is h applied to the first match of p against e, and is e itself if p does not match e.", "quantifier": "every pattern, handler and expression", "why_tests_cant": "ranges over all handlers and expressions", "anchors": ["oryx/experimental/matching/rules.py:make_rule"]}
{"id": "C10", "title": "A rule is a function of its input, whatever was rewritten before", "statement": "Calling the same rule object on the same expression gives the same answer regardless of which other expressions the rule was called on before (the memo cache is invisible).", "quantifier": "every call history and every expression", "why_tests_cant": "bugs need a particular earlier call; histories are unbounded", "anchors": ["oryx/experimental/matching/rules.py:make_rule (functools.lru_cache)"]}
{"id": "C11", "title": "rule_list applies the first rule that changes the expression; in_order applies all", "statement": "rule_list(r1..rn)(e) equals ri(e) for the least i with ri(e) != e, and e if there is none; in_order(r1..rn)(e) = rn(...(r1(e))).", "quantifier": "every list of rules and every expression", "why_tests_cant": "all lists of arbitrary rules", "anchors": ["oryx/experimental/matching/rules.py:rule_list", "oryx/experimental/matching/rules.py:in_order"]}
{"id": "C12", "title": "iterated stops only at a fixed point", "statement": "If iterated(r)(e) returns x then r(x)==x and x is reached from e by finitely many applications of r; if some finite number of applications of r to e reaches a fixed point then iterated(r) returns it; otherwise it never returns.", "quantifier": "every rule and expression, any number of iterations", "why_tests_cant": "unbounded iteration; non-termination", "anchors": ["oryx/experimental/matching/rules.py:iterated"]}
{"id": "C13", "title": "bottom_up and top_down reach every subexpression", "statement": "bottom_up(r) rewrites all children before the parent and visits every node exactly once; rewrite_subexpressions(r) touches exactly the direct children; top_down(r) rewrites the root first and then the children of the result. All preserve the container type, arity and dict keys of nodes that r leaves alone.", "quantifier": "every rule and every expression tree", "why_tests_cant": "all trees and all rules", "anchors": ["oryx/experimental/matching/rules.py:bottom_up", "oryx/experimental/matching/rules.py:top_down", "oryx/experimental/matching/rules.py:rewrite_subexpressions", "oryx/experimental/matching/rules.py:tree_map"]}
{"id": "C14", "title": "term_rewriter returns a normal form", "statement": "If term_rewriter(rules)(e) returns x, then no rule changes any subexpression of x.", "quantifier": "every set of rules and every expression for which it returns", "why_tests_cant": "quantifies over every subexpression and every rule set", "anchors": ["oryx/experimental/matching/rules.py:term_rewriter"]}
{"id": "C15", "title": "term_rewriter preserves meaning and terminates on decreasing rules", "statement": "If every rule preserves some compositional meaning of expressions then so does term_rewriter; and if every change made by a rule strictly decreases a size compatible with contexts, term_rewriter terminates on every expression.", "quantifier": "every semantics, rule set and expression", "why_tests_cant": "unbounded trees and iteration counts", "anchors": ["oryx/experimental/matching/rules.py:term_rewriter", "oryx/experimental/matching/rules.py:iterated", "oryx/experimental/matching/rules.py:bottom_up", "oryx/experimental/matching/rules.py:rule_list"]}
{"id": "C16", "title": "Converting a function to an expression and evaluating it back is the identity", "statement": "rewrite(f, identity)(args) returns the same outputs as f(args): the expressions built from f's jaxpr evaluate, in the environment binding the argument names (and captured constants), to exactly what executing the jaxpr equations in order gives, including multi-output primitives, literals, shadowed names and nested call/jit bodies.", "quantifier": "every jaxpr (any number of equations, nesting depth, outputs) and all argument values", "why_tests_cant": "programs are unbounded; sharing is expanded into trees", "anchors": ["oryx/experimental/matching/jax_rewrite.py:jaxpr_to_expressions", "oryx/experimental/matching/jax_rewrite.py:evaluate", "oryx/experimental/matching/jax_rewrite.py:rewrite", "oryx/experimental/matching/jax_rewrite.py:BoundExpression.evaluate", "oryx/experimental/matching/jax_rewrite.py:CallPrimitive.evaluate"]}
{"id": "C17", "title": "Meaning-preserving rules preserve functions", "statement": "If a rule never changes the value of any expression in any environment then rewrite(f, rule) (also with rule lifted by bottom_up/term_rewriter) computes the same function as f.", "quantifier": "every function, argument, and meaning-preserving rule", "why_tests_cant": "all programs and all rules", "anchors": ["oryx/experimental/matching/jax_rewrite.py:rewrite", "oryx/experimental/matching/rules.py:bottom_up", "oryx/experimental/matching/rules.py:term_rewriter"]}
{"id": "C18", "title": "Nested jitted functions with captured constants survive rewriting", "statement": "rewrite(f, identity) also reproduces f when a jitted function called inside f closes over array constants.", "quantifier": "every function with nested jit bodies, with or without closed-over constants", "why_tests_cant": "depends on an internal representation choice for constants at any nesting depth", "anchors": ["oryx/experimental/matching/jax_rewrite.py:jaxpr_to_expressions (pjit branch)"]}
{"id": "C19", "title": "compose_einsums computes the nested einsum", "statement": "The single einsum returned by compose_einsums on (parent formula, left args, child einsum, right args) has, for all operand values, the same value as evaluating the child einsum and passing its result to the parent einsum; mismatched ranks raise ValueError.", "quantifier": "every parent/child formula within the 52-letter budget, every axis size, every operand value over a commutative semiring", "why_tests_cant": "all formulas with all coincidences of index letters (name capture!) and all shapes", "anchors": ["oryx/experimental/autoconj/einsum.py:compose_einsums"]}
{"id": "C20", "title": "Linear primitives equal the einsums they are rewritten to", "statement": "transpose, squeeze, reduce_sum and dot_general (any contracting and batch dimensions) have the same value as the Einsum that the canonicalization rules replace them with.", "quantifier": "every rank up to the letter budget, permutation, axis set, dimension numbers, shape and operand value", "why_tests_cant": "all dimension-number combinations and all shapes", "anchors": ["oryx/experimental/autoconj/canonicalize.py:transpose_as_einsum", "oryx/experimental/autoconj/canonicalize.py:dot_as_einsum", "oryx/experimental/autoconj/canonicalize.py:squeeze_as_einsum", "oryx/experimental/autoconj/canonicalize.py:reduce_sum_as_einsum"]}
{"id": "C21", "title": "AddN flattening preserves sums", "statement": "add_to_addn and addn_of_addn_to_addn preserve the value of the expression, for every nesting of additions.", "quantifier": "every operand list (non-empty child) and operand value in a commutative monoid", "why_tests_cant": "all arities and nestings", "anchors": ["oryx/experimental/autoconj/addn.py:AddN", "oryx/experimental/autoconj/canonicalize.py:add_to_addn", "oryx/experimental/autoconj/canonicalize.py:addn_of_addn_to_addn"]}
{"id": "C22", "title": "canonicalize preserves the value of an expression", "statement": "If canonicalize(e) returns e' then e' evaluates to the same value as e in every environment in which e evaluates.", "quantifier": "every expression built from add, transpose, squeeze, reduce_sum, dot_general, Einsum, AddN and opaque leaves", "why_tests_cant": "unbounded rewriting sequences over unbounded trees", "anchors": ["oryx/experimental/autoconj/canonicalize.py:canonicalize"]}
{"id": "C23", "title": "sow is the identity and reaping does not change outputs", "statement": "Without a harvest transformation sow(x)==x; and call_and_reap(f)(x)[0]==f(x) whenever reaping succeeds, for every mode, tag and control-flow nesting.", "quantifier": "every program (straight-line, calls, nest, scan, while, cond) and input", "why_tests_cant": "all programs and inputs", "anchors": ["oryx/core/interpreters/harvest.py:sow", "oryx/core/interpreters/harvest.py:call_and_reap", "oryx/core/interpreters/harvest.py:ReapContext"]}
{"id": "C24", "title": "reap returns exactly the matching sows", "statement": "reap(f,tag,allowlist,blocklist)(x) is the dictionary with one entry per name sown with that tag and passing the lists, mapped to its (mode-determined) value, and nothing else.", "quantifier": "every program, input, tag and filter", "why_tests_cant": "all programs and filters", "anchors": ["oryx/core/interpreters/harvest.py:ReapContext.handle_sow", "oryx/core/interpreters/harvest.py:HarvestContext.process_sow"]}
{"id": "C25", "title": "Repeated names: strict errors, clobber keeps the last, append collects", "statement": "Sowing a name twice under one tag and scope raises if either is strict; with clobber the last value is kept; with append all values are collected in order.", "quantifier": "every sequence of sows", "why_tests_cant": "all interleavings of names and modes", "anchors": ["oryx/core/interpreters/harvest.py:ReapContext.handle_sow"]}
{"id": "C26", "title": "sow_cond keeps the last value whose predicate held, else zeros", "statement": "For a name sown with sow_cond any number of times (possibly after clobber sows), the reaped value is the one from the last sow that took effect (predicate true, or clobber), and zeros if none did.", "quantifier": "every sequence of predicates and values, at top level, in scan, while, cond and nest", "why_tests_cant": "unbounded sequences, mixing of modes", "anchors": ["oryx/core/interpreters/harvest.py:sow_cond", "oryx/core/interpreters/harvest.py:ReapContext.handle_sow", "oryx/core/interpreters/harvest.py:call_and_reap", "oryx/core/interpreters/harvest.py:_update_clobber_carry"]}
{"id": "C27", "title": "Tags are isolated", "statement": "Harvesting tag t neither reads nor alters sows of other tags: they stay visible to an outer harvest of their own tag with the same names and values, unless exclusive=True, in which case they are dropped.", "quantifier": "every program, pair of tags and filter settings", "why_tests_cant": "all programs", "anchors": ["oryx/core/interpreters/harvest.py:HarvestContext.process_sow"]}
{"id": "C28", "title": "reap through scan", "statement": "Reaping a scan gives, for every append name, the stacked per-iteration values in iteration order and, for every clobber/cond_clobber name, the value of the last (effective) iteration; strict names raise; carry and outputs are unchanged; this holds for any combination of modes in one body.", "quantifier": "every loop body, length, reverse flag, initial carry, inputs, and mixture of modes", "why_tests_cant": "all iteration counts and mode mixtures", "anchors": ["oryx/core/interpreters/harvest.py:_reap_scan_rule", "oryx/core/interpreters/harvest.py:_update_clobber_carry"]}
{"id": "C29", "title": "reap through while and cond", "statement": "Reaping a while loop gives the last iteration's clobber values (last effective one for cond_clobber; zeros if the body never ran) and rejects other modes; reaping a cond gives the values of the taken branch and rejects branches whose sow names differ.", "quantifier": "every loop, iteration count, predicate and branch", "why_tests_cant": "unbounded iteration", "anchors": ["oryx/core/interpreters/harvest.py:_reap_while_rule", "oryx/core/interpreters/harvest.py:_reap_cond_rule", "oryx/core/interpreters/harvest.py:_check_branch_metadata"]}
{"id": "C30", "title": "nest scopes names", "statement": "Reaping nest(f,scope=s) gives {s: reap(f)} (and no entry if f sows nothing); planting {s: d} into nest(f,scope=s) is planting d into f; equal names in different scopes do not collide.", "quantifier": "every program, scope and nesting depth", "why_tests_cant": "all nestings", "anchors": ["oryx/core/interpreters/harvest.py:nest", "oryx/core/interpreters/harvest.py:ReapContext.process_nest", "oryx/core/interpreters/harvest.py:PlantContext.process_nest"]}
{"id": "C31", "title": "plant overrides exactly the named sows", "statement": "plant(f)(plants,x) behaves like f in which every sow of the tag whose name is in plants returns the planted value and all other sows behave as before; planting the same strict name twice raises.", "quantifier": "every program, plants dictionary, filter and input", "why_tests_cant": "all programs and plants", "anchors": ["oryx/core/interpreters/harvest.py:PlantContext.handle_sow", "oryx/core/interpreters/harvest.py:plant", "oryx/core/interpreters/harvest.py:_plant_scan_rule", "oryx/core/interpreters/harvest.py:_plant_while_rule", "oryx/core/interpreters/harvest.py:_plant_cond_rule"]}
{"id": "C32", "title": "Planting what was reaped reproduces the run", "statement": "If reap(f)(x)=r for a program whose sows are strict (or append in scans), then plant(f)(r,x)=f(x).", "quantifier": "every such program and input", "why_tests_cant": "all programs, loop counts", "anchors": ["oryx/core/interpreters/harvest.py:plant", "oryx/core/interpreters/harvest.py:reap"]}
{"id": "C33", "title": "harvest = plant then reap; nothing remains to be harvested", "statement": "harvest(f)(plants,x) returns f's output under the plants together with the reaps of exactly the non-planted names, and harvesting the result again with the same tag plants and reaps nothing.", "quantifier": "every program, plants and filters", "why_tests_cant": "all programs", "anchors": ["oryx/core/interpreters/harvest.py:harvest"]}
{"id": "C34", "title": "Slice concatenation reconstructs the array", "statement": "If two NDSlices describe parts of one array and can_concatenate holds, concatenate describes the union region with the right values and ILDJs at every index, and a full-range slice is the array.", "quantifier": "every rank, dimension, slice bounds and array contents", "why_tests_cant": "all ranks and shapes", "anchors": ["oryx/core/interpreters/inverse/slice.py:NDSlice.concatenate", "oryx/core/interpreters/inverse/slice.py:NDSlice.can_concatenate"]}
{"id": "C35", "title": "Joining cells never loses or invents information", "statement": "Joining two cells whose slices describe parts of the same array gives a cell whose slices describe parts of that array and cover every index either cell covered.", "quantifier": "every rank, every pair of slice sets of one array", "why_tests_cant": "all geometric configurations of hyper-rectangles", "anchors": ["oryx/core/interpreters/inverse/core.py:InverseAndILDJ.join", "oryx/core/interpreters/inverse/core.py:InverseAndILDJ.__lt__", "oryx/core/interpreters/inverse/slice.py:NDSlice.__lt__"]}
{"id": "C36", "title": "propagate is independent of the processing order", "statement": "For rules that are monotone, extensive and locally idempotent, propagate terminates on finite-height cells and returns the least environment above the initial cells that is stable under every equation's rule, whatever order the work-queue (built from unordered sets) uses.", "quantifier": "every jaxpr graph, rule set, initial cells and every queue order/hash seed", "why_tests_cant": "hash-order schedules; all graphs", "anchors": ["oryx/core/interpreters/propagate.py:propagate", "oryx/core/interpreters/propagate.py:update_queue_state", "oryx/core/interpreters/propagate.py:construct_graph_representation"]}
{"id": "C37", "title": "inverse undoes the function", "statement": "If inverse(f)(f(x)) returns without error then it returns x, for any schedule, for functions built from registered invertible primitives (applied inside their domains) and forward-evaluated side computations; an under-determined input raises ValueError instead of returning.", "quantifier": "every straight-line program over registered primitives, every input, every propagation order", "why_tests_cant": "all programs, inputs and schedules", "anchors": ["oryx/core/interpreters/inverse/core.py:inverse_and_ildj", "oryx/core/interpreters/inverse/core.py:register_elementwise", "oryx/core/interpreters/inverse/core.py:register_binary", "oryx/core/interpreters/inverse/core.py:default_rule"]}
{"id": "C38", "title": "Registered inverse rules are inverses with the right log-derivative", "statement": "For every registered elementwise/binary primitive (exp, log, sin, cos, expm1, log1p, neg, sqrt, integer_pow, pow, add, sub, mul, div, logit, expit, softplus), on its stated domain the rule's inverse value inverts the primitive and the added ILDJ equals log|d inverse/dy|.", "quantifier": "all real inputs in the domain", "why_tests_cant": "real-valued identities over continuous domains", "anchors": ["oryx/core/interpreters/inverse/rules.py:*_left/*_right", "oryx/core/interpreters/inverse/rules.py:integer_pow_inverse", "oryx/core/interpreters/inverse/rules.py:expit_ildj", "oryx/core/interpreters/inverse/rules.py:softplus_ildj"]}
{"id": "C39", "title": "ildj obeys the change-of-variables formula", "statement": "For a unary function built by composing registered elementwise and binary-with-constant primitives, ildj(f)(y) = log|(f^-1)'(y)|; inserting shape-only operations (reshape) or dtype conversions does not change it.", "quantifier": "every composition length, every point of the domain", "why_tests_cant": "all compositions and points", "anchors": ["oryx/core/interpreters/inverse/core.py:inverse_and_ildj", "oryx/core/interpreters/inverse/rules.py:reshape_ildj", "oryx/core/interpreters/inverse/rules.py:convert_element_type_ildj"]}
{"id": "C40", "title": "log_prob is the sum of sample log-probabilities plus ILDJ corrections, or an error", "statement": "log_prob(f)(y) equals the sum over all random samples in f of their log density at the values that y determines, plus the ILDJ terms; it raises ValueError if the value of any sample is not determined by y, and never silently omits a sample.", "quantifier": "every program with registered sampling primitives and invertible deterministic code", "why_tests_cant": "all programs", "anchors": ["oryx/core/interpreters/log_prob.py:log_prob_jaxpr", "oryx/distributions/distribution_extensions.py:random_variable_log_prob_rule"]}
{"id": "C41", "title": "intervene and conditional fix variables", "statement": "intervene(f,x=v) behaves as f with the sample site x replaced by v and x no longer appears in joint_sample; conditional(f,names)(key,...,vals) = intervene(f, **dict(zip(names,vals)))(key,...).", "quantifier": "every program, set of names and values", "why_tests_cant": "all programs", "anchors": ["oryx/core/ppl/transformations.py:intervene", "oryx/core/ppl/transformations.py:conditional"]}
{"id": "C42", "title": "block, joint_sample and trace", "statement": "trace(f)(key) returns f(key) together with joint_sample(f)(key); block(f,names) has the same output as f and its joint_sample is that of f without those names.", "quantifier": "every program and name set", "why_tests_cant": "all programs", "anchors": ["oryx/core/ppl/transformations.py:block", "oryx/core/ppl/transformations.py:trace", "oryx/core/ppl/transformations.py:joint_sample"]}
{"id": "C43", "title": "graph_replace re-roots the program", "statement": "graph_replace(f,inputs,outputs)(key,*vals) returns the values the output names take when the inputs are fixed to vals, and the remaining latents (and only those) stay visible to joint_sample.", "quantifier": "every program, input and output names", "why_tests_cant": "all programs", "anchors": ["oryx/core/ppl/transformations.py:graph_replace"]}
{"id": "C44", "title": "Effect handlers: no handlers means no effect", "statement": "make_effect_handler({})(f)(s,x) = (f(x), s); handlers are invoked exactly once per executed occurrence of their primitive, in program order, threading the state, and inside nested call/jit bodies as if inlined.", "quantifier": "every jaxpr, handler table and initial state", "why_tests_cant": "all programs and handlers", "anchors": ["oryx/core/ppl/effect_handler.py:eval_jaxpr_with_state", "oryx/core/ppl/effect_handler.py:make_effect_handler", "oryx/core/ppl/effect_handler.py:_pjit_effect_handler_rule"]}
{"id": "C45", "title": "call_and_update is pure and keeps the variable set", "statement": "call_and_update(m,x) never changes m; the updated module has exactly the same variable names, assigned names hold the last assigned value, other variables are unchanged, and an assign without a declared variable raises; call and update are its two projections.", "quantifier": "every stateful function and every sequence of calls", "why_tests_cant": "unbounded call histories", "anchors": ["oryx/core/state/function.py:FunctionModule.call_and_update", "oryx/core/state/module.py:assign", "oryx/core/state/api.py:call"]}
{"id": "C46", "title": "init of a stateful function agrees with running it", "statement": "For m=init(f)(key,x): m.variables() are the values f declares when run with key; m.call(x') equals f run with those variables in place of the declared initial values.", "quantifier": "every stateful function, key and inputs", "why_tests_cant": "all programs", "anchors": ["oryx/core/state/function.py:function_init"]}
{"id": "C47", "title": "Lists compose, tuples fan out", "statement": "call_and_update of a list of modules is function composition left to right with every module updated once; of a tuple it applies every module to the same input; structure and length are preserved.", "quantifier": "every list/tuple (any length, any nesting) of modules and any input", "why_tests_cant": "all nestings", "anchors": ["oryx/core/state/registrations.py:list_call_and_update", "oryx/core/state/registrations.py:tuple_call_and_update"]}
{"id": "C48", "title": "Modules round-trip through flatten/unflatten and serialize/deserialize", "statement": "unflatten(flatten(m)) behaves identically to m (same variables, call, name), for function modules, layers and Serial stacks of any depth; deserialize(serialize(m)) likewise given a lossless pickle.", "quantifier": "every module and layer tree", "why_tests_cant": "all module trees", "anchors": ["oryx/core/state/function.py:FunctionModule.flatten", "oryx/core/serialize.py", "oryx/experimental/nn/base.py:Layer.flatten", "oryx/experimental/nn/combinator.py:Serial.flatten"]}
{"id": "C49", "title": "filter_kwargs keeps exactly the accepted keywords", "statement": "filter_kwargs(func,kw) returns exactly the entries of kw that func accepts as keyword arguments, so func(**filter_kwargs(func,kw)) never fails with an unexpected keyword and never loses an accepted one; check_in_kwargs(func,k) is True iff k would be kept.", "quantifier": "every signature (positional, defaulted, keyword-only, **kwargs) and every dictionary", "why_tests_cant": "all signatures", "anchors": ["oryx/core/kwargs_util.py:filter_kwargs", "oryx/core/kwargs_util.py:check_in_kwargs"]}
{"id": "C50", "title": "tie_in and tie_all are identities", "statement": "tie_in(x,y)==y and tie_all(*xs)==xs for all pytrees, including trees with no leaves.", "quantifier": "every pytree", "why_tests_cant": "all trees", "anchors": ["oryx/core/primitive.py:tie_all", "oryx/core/primitive.py:tie_in"]}
{"id": "C51", "title": "Dynamic contexts behave as a per-trace stack", "statement": "get_dynamic_context returns the innermost context entered and not yet exited for the current trace state, raises when there is none, and entering/exiting (normally or by exception) contexts of one trace state never affects another; after all contexts are exited the table is as before.", "quantifier": "every well-nested sequence of enter/exit/raise over several trace states", "why_tests_cant": "unbounded histories", "anchors": ["oryx/core/trace_util.py:new_dynamic_context", "oryx/core/trace_util.py:get_dynamic_context"]}
{"id": "C52", "title": "Optimizer state evolves as documented", "statement": "Over any sequence of gradients: sgd with momentum produces updates -lr*sum decay^(n-i) g_i (nesterov: one further decay step), scale_by_schedule uses the 0-based step number, scale_by_adam's bias-corrected first moment is the weighted average of the gradients with weights summing to one.", "quantifier": "every number of steps, gradient sequence and hyper-parameter", "why_tests_cant": "unbounded step counts over the reals", "anchors": ["oryx/experimental/optimizers/optix.py:trace", "oryx/experimental/optimizers/optix.py:sgd", "oryx/experimental/optimizers/optix.py:scale_by_schedule", "oryx/experimental/optimizers/optix.py:scale_by_adam"]}
{"id": "C53", "title": "apply_every emits exactly every k-th step", "statement": "apply_every(k) returns zero except on steps k-1, 2k-1, ..., where it returns the sum of the last k updates.", "quantifier": "every k>=1, number of steps and gradient sequence", "why_tests_cant": "unbounded", "anchors": ["oryx/experimental/optimizers/optix.py:apply_every"]}
{"id": "C54", "title": "Clipping bounds updates", "statement": "clip(d) maps every leaf of the update tree into [-d,d] elementwise, keeping the tree structure; clip_by_global_norm(m) returns the updates unchanged if their global norm is below m and otherwise scales them to norm exactly m.", "quantifier": "every update pytree and bound", "why_tests_cant": "all trees and reals", "anchors": ["oryx/experimental/optimizers/optix.py:clip", "oryx/experimental/optimizers/optix.py:clip_by_global_norm"]}
{"id": "C55", "title": "chain composes updates serially with private state", "statement": "chain(u1..un) feeds the output of each update function to the next, and each keeps its own state across steps independent of the others even if they use the same variable names.", "quantifier": "every list of update functions and every gradient history", "why_tests_cant": "unbounded histories", "anchors": ["oryx/experimental/optimizers/optix.py:chain", "oryx/experimental/optimizers/optix.py:optimize", "oryx/experimental/optimizers/optix.py:gradient_descent"]}
{"id": "C56", "title": "Metropolis satisfies detailed balance", "statement": "With a symmetric proposal, metropolis accepts with probability min(1, pi(y)/pi(x)), so pi(x)P(x,y)=pi(y)P(y,x) and pi is stationary.", "quantifier": "every target density, symmetric proposal and pair of states", "why_tests_cant": "a distributional identity", "anchors": ["oryx/experimental/mcmc/kernels.py:metropolis"]}
{"id": "C57", "title": "Metropolis-Hastings satisfies detailed balance for asymmetric proposals", "statement": "metropolis_hastings accepts with probability min(1, pi(y)q(y->x)/(pi(x)q(x->y))), so pi is stationary for any proposal.", "quantifier": "every target, proposal and pair of states", "why_tests_cant": "a distributional identity; symmetric test proposals hide a swapped ratio", "anchors": ["oryx/experimental/mcmc/kernels.py:metropolis_hastings"]}
{"id": "C58", "title": "The leapfrog integrator is reversible", "statement": "Running n leapfrog steps, negating the momentum and running n steps again returns to the start with negated momentum, for any log density and step size.", "quantifier": "every n, gradient function, step size and state", "why_tests_cant": "all n and potentials", "anchors": ["oryx/experimental/mcmc/kernels.py:hmc"]}
{"id": "C59", "title": "sample_chain returns the iterates of the kernel", "statement": "sample_chain(kernel,n)(key,state) returns exactly the n states obtained by iterating the kernel with its own evolving state on the split keys, and the stored kernel state is the one after step n.", "quantifier": "every kernel, n and initial state", "why_tests_cant": "all n", "anchors": ["oryx/experimental/mcmc/kernels.py:sample_chain"]}
{"id": "C60", "title": "Serial is composition and threads rng and state", "statement": "Serial([l1..ln]) applies the layers in order, gives each its own sub-key, updates each layer's state once; (a>>b) behaves as Serial([a,b]).", "quantifier": "every list of layers and input", "why_tests_cant": "all nestings", "anchors": ["oryx/experimental/nn/combinator.py:Serial._call_and_update", "oryx/experimental/nn/base.py:Template.compose"]}
{"id": "C61", "title": "Layer specs predict output shapes", "statement": "spec of Dense/Flatten/Reshape/Pooling/Conv/Serial equals the shape of the output produced by calling the layer on an input of that shape.", "quantifier": "every shape and layer hyper-parameter", "why_tests_cant": "all shapes", "anchors": ["oryx/experimental/nn/core.py:Dense.spec", "oryx/experimental/nn/reshape.py", "oryx/experimental/nn/pooling.py:Pooling.spec", "oryx/experimental/nn/convolution.py:conv_info", "oryx/core/state/registrations.py:list_spec"]}
{"id": "C62", "title": "BatchNorm moving statistics are exponential averages", "statement": "After any number of updates the moving mean/variance are the exponentially weighted averages of batch statistics with weights (momentum) summing to one together with the initial value, and evaluation mode normalises with them and does not depend on the batch.", "quantifier": "every batch history and momentum", "why_tests_cant": "unbounded histories", "anchors": ["oryx/experimental/nn/normalization.py:BatchNorm._update_axis", "oryx/experimental/nn/normalization.py:BatchNorm._call_batched"]}
{"id": "C63", "title": "random_variable tags the output of a program and keeps its inner variables", "statement": "random_variable(f, name=n) has the output of f, and its joint_sample/trace contains that output under n together with the named variables of f.", "quantifier": "every program f and name", "why_tests_cant": "nested programs of every shape; the repository's tests only tag functions without inner variables", "anchors": ["oryx/core/ppl/transformations.py:function_random_variable", "oryx/core/ppl/transformations.py:random_variable", "oryx/core/ppl/transformations.py:joint_sample"]}
{"id": "C64", "title": "Whether inverse succeeds does not depend on the order of sets", "statement": "If inverse(f)(y) returns under one iteration order of the sets of equations used by the propagation, it returns the same under every other order.", "quantifier": "every program, output and iteration order", "why_tests_cant": "iteration orders of Python sets depend on hashes and addresses and cannot be chosen by a test", "anchors": ["oryx/core/interpreters/inverse/core.py:inverse_and_ildj", "oryx/core/interpreters/inverse/bijector_extensions.py:bijector_ildj_rule", "oryx/core/interpreters/propagate.py:propagate"]}
{"id": "C65", "title": "canonicalize brings every expression into canonical form", "statement": "No subexpression of the result of canonicalize(e) is a transpose, squeeze, reduce_sum or dot_general, a plain addition, an Einsum with an Einsum among its operands or an AddN with an AddN among its operands.", "quantifier": "every expression, primitive and history of earlier calls (rule caches)", "why_tests_cant": "expressions of every size and nesting, and rewrites whose results enable further rewrites in any order", "anchors": ["oryx/experimental/autoconj/canonicalize.py:canonicalize", "oryx/experimental/autoconj/canonicalize.py:CANONICALIZATION_RULES"]}
{"id": "C66", "title": "constrain is the change of variables formula", "statement": "constrain(f)(target)(x) equals target(f(x)) plus the sum over the elements of x of log |f'(x)|, so that sampling in the unconstrained space has the right target density; and constraining with a composition is constraining twice.", "quantifier": "every invertible elementwise composition f of registered primitives, every array of any shape in the domain, every target and every schedule of the propagation", "why_tests_cant": "all functions and all real points; the iteration order of sets cannot be chosen by a test", "anchors": ["oryx/experimental/mcmc/utils.py:constrain", "oryx/core/interpreters/inverse/core.py:ildj", "oryx/core/interpreters/inverse/rules.py"]}
{"id": "C67", "title": "log_prob of a vmapped random variable is the sum over its instances", "statement": "If a random variable of a distribution is drawn under any nesting of vmaps (over keys and parameters), sampling gives at each index the draw of that instance, and log_prob of the mapped program at a value is the sum over all indices of the log-probability of the instance's distribution at the instance's part of the value.", "quantifier": "every nesting of vmaps, in_axes, distribution and value", "why_tests_cant": "nestings and combinations of mapped and unmapped parameters are unbounded; the repository tests single vmaps", "anchors": ["oryx/distributions/distribution_extensions.py:random_variable_batching_rule", "oryx/distributions/distribution_extensions.py:random_variable_log_prob_rule"]}
{"id": "C68", "title": "Harvesting a vmapped function is harvesting every example", "statement": "Reaping, planting or harvesting vmap(f) over k examples gives what reaping, planting or harvesting f gives on every example: the outputs in order, and reaped values with a leading axis of length k whose index i holds the value reaped from example i; batched plants are planted example by example; it raises exactly when f on some example raises.", "quantifier": "every function with sows, nests, calls and scans, every tag and filter, number of examples, arguments and plants", "why_tests_cant": "programs, nestings of scopes and loops, and numbers of examples are unbounded; the repository tests single sows under vmap", "anchors": ["oryx/core/interpreters/harvest.py:_sow_batch_rule", "oryx/core/interpreters/harvest.py:call_and_reap", "oryx/core/interpreters/harvest.py:plant", "oryx/core/interpreters/harvest.py:harvest"]}
{"id": "C69", "title": "get_summaries returns exactly the summaries", "statement": "summary(v, name=n) returns v; get_summaries(f)(x) returns f(x) together with the dictionary of exactly the summaries that f records (last value for 'clobber', all values of a loop for 'append', a dictionary for a nest), the same that call_and_reap(f, tag='summary') returns; it raises exactly when f records a name twice in one scope with a mode that forbids it, or in a loop or branch with a mode that is not allowed there. No summary is left for an outer get_summaries, and values sown with other tags are left for transformations of those tags.", "quantifier": "every function, placement of summaries in scopes, calls, loops and branches, modes and inputs", "why_tests_cant": "programs and loop counts are unbounded", "anchors": ["oryx/util/summary.py:summary", "oryx/util/summary.py:get_summaries", "oryx/core/interpreters/harvest.py:harvest"]}
{"id": "C70", "title": "Sows are transparent to differentiation, and derivatives to harvesting", "statement": "jvp(f) is the same with and without the sows and nests in f; reaping jvp(f) at (x, dx) gives jvp(f)(x, dx) together with what reaping f gives at x, and raises exactly when reaping f does; planting into jvp(f) gives as primal output that of plant(f), where the tangent of a planted value is the tangent of the value it replaces.", "quantifier": "every function with sows, nests, calls, scans, while loops and conditionals, every point and direction, tag, filter and plants", "why_tests_cant": "programs, points and directions are unbounded; the repository differentiates through single sows only", "anchors": ["oryx/core/interpreters/harvest.py:_sow_jvp", "oryx/core/interpreters/harvest.py:call_and_reap", "oryx/core/interpreters/harvest.py:plant"]}
{"id": "C71", "title": "log_prob of a plate sums over the named axis", "statement": "plate(f) run under a named axis of N instances runs f on every instance with the key fold_in(key, index of the instance); log_prob of plate(f), on every instance, is the sum over all instances of the log-probability of f at the instance's value and arguments.", "quantifier": "every program f of samples, calls, plates and invertible code, every size of the axis, every value and every schedule of the propagation", "why_tests_cant": "the size of the axis, the programs and the schedules are unbounded; the repository tests one distribution", "anchors": ["oryx/core/ppl/plate_util.py:make_plate", "oryx/core/ppl/plate_util.py:plate_log_prob_rule", "oryx/core/interpreters/log_prob.py:log_prob_jaxpr"]}
{"id": "C72", "title": "Every nn layer computes its documented function", "statement": "Dense returns x @ kernel + bias; Relu, Tanh, Softplus act on every element; Softmax gives positive numbers that sum to one over the last axis in the proportions exp(x_i - x_j), and LogSoftmax its logarithm; Dropout is the identity in evaluation, and in training keeps each element with the mask of its key, divided by the rate (so that the mean over masks is the input), and raises without a key; Flatten and Reshape keep the elements in row-major order; pooling gives for every window and channel the maximum, sum or mean of the elements the window covers (padding is never counted); Conv and Deconv are the correlation of the (padded, dilated) image with the kernel plus the bias.", "quantifier": "every shape, parameter, window, stride, padding, input and key", "why_tests_cant": "shapes and real inputs are unbounded; the repository tests output shapes and a few values", "anchors": ["oryx/experimental/nn/core.py:Dense", "oryx/experimental/nn/core.py:Dropout", "oryx/experimental/nn/core.py:Softmax", "oryx/experimental/nn/reshape.py:Reshape", "oryx/experimental/nn/pooling.py:Pooling", "oryx/experimental/nn/convolution.py:Conv", "oryx/experimental/nn/convolution.py:Deconv"]}
{"id": "C73", "title": "A layer mapped over a batch treats every example as if alone", "statement": "vmap of a layer's call_and_update over examples (axis 0) gives, for every example, the output and the updated layer that the layer gives for that example with its own key; with BatchNorm layers the batch is dispatched to the batched methods, and in evaluation mode every example still gets the output that it gets alone; the mapped call succeeds when the layer fits one example, with the number of examples in front of the predicted shape.", "quantifier": "every network of the library's layers, reached by any initialisation and history of single and batched calls, every number of examples, inputs and keys", "why_tests_cant": "networks, histories and batch sizes are unbounded; the repository maps single layers over two or three examples", "anchors": ["oryx/experimental/nn/base.py:custom_layer_cau_batch", "oryx/experimental/nn/base.py:_layer_cau_batched", "oryx/experimental/nn/normalization.py:BatchNorm"]}
{"id": "C74", "title": "Keyword arguments of a stateful module reach its layers", "statement": "A module that init made from a function, called with keyword arguments, does what the function itself does when it is called with those arguments on top of the arguments of init, provided the function hands them on to its layers under their names (or calls layers that do not look at them); without keyword arguments the module evaluates as JAX does; a call keeps the names of the variables, changes exactly the assigned ones, and assigning an undeclared one raises ValueError.", "quantifier": "every function of layer calls, primitives, call primitives, jit/scan/... and Python branches, every values of its variables, arguments and keywords, every history of calls", "why_tests_cant": "functions, keywords and histories are unbounded; the repository tests one Dropout network", "anchors": ["oryx/core/state/function.py:eval_jaxpr_with_kwargs", "oryx/core/state/function.py:FunctionModule", "oryx/experimental/nn/function.py:layer_cau_kwargs_rule"]}
{"id": "C75", "title": "Derivatives of reaped values and with respect to planted values are the true ones", "statement": "jax.jvp of reap(f), plant(f) and harvest(f) computes derivatives: along every curve through the arguments and the planted values, with the given velocity, the outputs and the reaped values move with the returned tangents (a clobbered name with the tangent of the stored value, an appended name with the stacked tangents, a name that was not stored with tangent zero); the primal results are those of reap(f), plant(f), harvest(f), which also decide whether it raises; reaping does not change the outputs' tangents, and jvp(reap(f)) returns whenever jvp(f) does.", "quantifier": "every function of differentiable parts, sows, nests, calls, scans, while loops and conditionals whose predicates do not change near the point (custom_jvp/custom_vjp functions: without sows), every tag, filter and plants, every point, curve and direction", "why_tests_cant": "functions, points and directions are unbounded, and a derivative is a limit; the repository differentiates one reaped function", "anchors": ["oryx/core/interpreters/harvest.py:call_and_reap", "oryx/core/interpreters/harvest.py:reap_function", "oryx/core/interpreters/harvest.py:plant", "oryx/core/interpreters/harvest.py:harvest", "oryx/core/interpreters/harvest.py:_sow_jvp"]}
{"id": "C76", "title": "A custom inverse is used, and its automatic ILDJ is the true log-derivative", "statement": "The rule given to def_inverse_and_ildj is called once, with the known arguments, None for the unknown ones, the output and its ILDJ, and its answer is what inverse and ildj return; NonInvertibleError from it makes them raise. def_inverse_unary(f_inv, f_ildj) overrides the automatic inverse. def_inverse_unary(f_inv) alone gives as ILDJ log |f_inv'|, obtained by inverting f_inv, for f_inv composed of operations whose inverses are themselves registered; compositions of registered operations and custom functions obey the change of variables formula.", "quantifier": "every custom rule, every f_inv composed of registered operations, every composition, array shape, real point of the domains, schedule and set order", "why_tests_cant": "functions, points and schedules are unbounded, and the correctness of an ILDJ is a statement about derivatives; the repository tests a few functions at single points", "anchors": ["oryx/core/interpreters/inverse/custom_inverse.py:CustomInverse.def_inverse_unary", "oryx/core/interpreters/inverse/custom_inverse.py:CustomInverse.def_inverse_and_ildj", "oryx/core/interpreters/inverse/core.py:inverse_and_ildj", "oryx/core/interpreters/inverse/rules.py"]}
{"id": "C77", "title": "Canonicalizing a function keeps its values", "statement": "rewrite(f, canonicalize) traces f into expressions, canonicalizes them and evaluates the result: at every argument at which f returns, the rewritten function returns the same arrays (in exact arithmetic), whatever was canonicalized before; it always comes to an end.", "quantifier": "every function traced to a jaxpr of linear operations, additions, other primitives (with one or several results), literals, constants and nested jit calls, every argument, every history of the rules' caches", "why_tests_cant": "functions, arguments and histories are unbounded; the repository tests canonicalize on a handful of expressions and rewrite with other rules", "anchors": ["oryx/experimental/autoconj/canonicalize.py:canonicalize", "oryx/experimental/matching/jax_rewrite.py:rewrite", "oryx/experimental/matching/jax_rewrite.py:jaxpr_to_expressions", "oryx/experimental/matching/jax_rewrite.py:make_bound_expression"]}
{"id": "C78", "title": "Harvesting functions with custom derivative rules", "statement": "reap(f) of a function that calls jax.custom_jvp functions returns what it would return with their bodies written in place; plant(f) does too, and raises the same errors. jax.jvp(reap(f)) has the outputs and tangents of jax.jvp(f); the values it reaps are those sown by the code that jvp runs, i.e. by the derivative rules in place of the functions with rules (whose own sows are lost), and a value sown only in rules is reaped with tangent zero.", "quantifier": "every function of differentiable parts, nests, core calls and custom_jvp functions (in straight-line code, nests and core calls), every rule, tag, filter, plants, point and tangent", "why_tests_cant": "functions, rules and inputs are unbounded; the repository tests four small functions", "anchors": ["oryx/core/interpreters/harvest.py:HarvestTrace.process_custom_jvp_call", "oryx/core/interpreters/harvest.py:ReapContext.process_custom_jvp_call", "oryx/core/interpreters/harvest.py:PlantContext.process_custom_jvp_call"]}
{"id": "C79", "title": "Binding a function to a primitive does not change what it computes", "statement": "A function marked by custom_inverse, a bijector, a distribution, an nn layer or a plate (initial_style_bind, call_bind), or whose values pass through tie_all, returns the pytree the function itself returns, eagerly, under jit, under jvp (same primals and tangents) and under vmap (example by example), nested to any depth and closing over values of the caller; exceptions are the same too. The one difference: a marked function is traced, so it refuses (ConcretizationTypeError, TypeError) to branch on an array or a positional argument and to take or return objects that are no arrays; keyword arguments of initial_style_bind stay Python values, call_bind needs a function with a name.", "quantifier": "every function over pytrees with primitives, branches, closures, keyword arguments, nested marked functions and tie_all, every JVP and batching rules that agree with the primitives, every input", "why_tests_cant": "functions, nestings and transformations are unbounded; the repository tests a handful of one-line functions", "anchors": ["oryx/core/primitive.py:call_bind", "oryx/core/primitive.py:initial_style_bind", "oryx/core/primitive.py:FlatPrimitive", "oryx/core/primitive.py:InitialStylePrimitive", "oryx/core/primitive.py:tie_all", "oryx/core/trace_util.py:stage"]}
{"id": "C80", "title": "Gradients see through sows, and gradients of reaped values are the true ones", "statement": "jax.vjp (jax.grad) of a function with sows, scopes and core calls returns the values, cotangents and errors of the function without them, and its pullback is the transpose of jax.jvp. jax.vjp(reap(f)) returns what reap(f) returns, and its pullback sends cotangents of the outputs and of the reaped values (missing names count as zero) to the gradient of the sum of their products: the one that the velocities of the outputs and the reaped values along every curve determine. The same holds of plant(f) and harvest(f), where a planted value receives the cotangent of the value it replaces and that value receives zero; plant(jax.vjp(f)) instead returns what plant(f) returns and runs f's pullback, sows included, at the planted residuals. Reaping does not replace jax.custom_vjp rules: with the reaped values unused the gradient is exactly that of f. reap(jax.vjp(f)) returns what vjp(f) returns and reaps what the forward pass sows (fwd in place of a function with a rule); cotangents are not reaped.", "quantifier": "every function of differentiable steps, sows, nests, core calls and custom_vjp functions (in straight-line code, nests, calls, conds and scans), every rule, tag, filter, point, direction and cotangent", "why_tests_cant": "functions, points and cotangents are unbounded, and a gradient is a statement about derivatives; the repository differentiates two functions in reverse mode", "anchors": ["oryx/core/interpreters/harvest.py:_sow_transpose", "oryx/core/interpreters/harvest.py:_nest_transpose_rule", "oryx/core/interpreters/harvest.py:HarvestTrace.process_custom_vjp_call", "oryx/core/interpreters/harvest.py:ReapContext.process_custom_vjp_call", "oryx/core/interpreters/harvest.py:call_and_reap"]}
