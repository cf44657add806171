# Formal model of TerrayTM/pytimize in Coq 8.16.1

## 1. Method

* `/repo` is read as text. Each function is re-written as a total, computable Gallina
  function, branch by branch, with exceptions as values (`Py.res`: `Ok`, `Raise`, and
  `Diverges` for a fuelled loop that ran out of fuel). Every definition cites the source lines.
* Files come in groups: `XModel.v` (definitions only), `XSpec.v` (independent vocabulary used to
  state the property, no model helper inside), `XProofs.v` (lemmas), `XProps.v` (the property
  theorems, with `Print Assumptions` below and non-vacuity `Example`s beside).
* Where the faithful model violates the property, `..._refuted` exhibits a witness computed by
  the model; the part that does hold is proved separately.

## 2. Modelling decisions

| Python | Coq |
| --- | --- |
| `float` / `int` numbers | `Qc` (canonical rationals, exact). `nan`, `inf` and overflow only for C77 and C78, rounding only for C74, C77 and C78; every tolerance constant of the code is kept literally |
| `str` | `string` (8-bit characters). `set("ab")` is the set of one-character strings |
| `dict` | association list in insertion order |
| `set` | duplicate-free list; where iteration order is observable the model takes an arbitrary enumeration-order oracle |
| mutable object | function returning the new state; sharing between objects (aliasing) is modelled by an explicit heap where a property is about it |
| exception | `Raise e` |
| unbounded loop | explicit fuel, `Diverges` on exhaustion; totality theorems show that enough fuel exists |
| `np.linalg.det`, `np.linalg.inv` | exact determinant (Laplace expansion) and adjugate inverse |
| `np.isclose`, `np.allclose`, `math.isclose` | exact formulas of their documentation |

## 3. Plan per property

C01-C02 `Comparator`: direct model over `Qc`, boolean case analysis and rational arithmetic.
C03-C04 `DisjointSet`: state machine, refinement to the equivalence closure of the unions made; invariant (rank order, size bound) by induction over histories.
C05-C06 `GraphParser`: backtracking regular-expression matcher with Python's greedy semantics; language characterisation and round trip by induction over the edge list.
C07-C08 `LinearParser`: same matcher; C08 is refuted by `1x_0` and `1x_1|2x_2`, the guarded part is proved.
C09-C10 `UndirectedGraph` state machine with invariant; `remove_edge` refutes the invariant, the rest is proved.
C11 `cut`/`degree`: characterisation for sets; multi-character names are refuted.
C12-C15 traversal: queue loop with invariant; exact characterisations; `is_cyclic`, `dfs`, `rng` are refuted.
C16 stable set formulation: the integral points of the returned program are exactly the indicator vectors of stable sets with respect to the `edges` dictionary; contents of `np.empty` are a parameter; edgeless graphs and removed edges are refuted. Branch and bound finds a largest stable set without assumptions on the relaxations: a square submatrix of rows with at most two ones has determinant at most 2^(k/3) (`MinorProofs.v`), at most 1 when the graph has two sides, and this bounds the distance between distinct pivots and ratios.
C17 heap model of adjacency sets; equality proved, independence refuted.
C18 `shortest_path`: refuted for every pair of distinct vertices.
C19-C20 `DirectedGraph` state machine and cuts.
C21-C27 flows: residual networks, BFS path, augmentation invariant, max-flow = min-cut, termination; preflow with height-function invariant. Antiparallel arcs and multi-character names are refuted.
C28-C45 linear programs: list matrices over `Qc`; proofs through mathcomp matrices; Bland's rule termination; two-phase; duality; aliasing heap for C44.
C46 branch and bound: refinement of the recursion; refutations for min and for negative/free variables; unconditional for integer matrices with bounded minors, because every relaxation on the way adds only unit rows, which leave the bound on the minors unchanged (`mixed_det`).
C47-C49 formulation DSL: heap of mutable equations.
C50-C52, C54 unconstrained: user functions are total functions on rational vectors; stopping rule invariants, Armijo condition, convergence for smooth functions, in-place effects on the starting point (array or list).
C53, C55 rref: to_rref and is_in_rref over exact rationals with the 1e-9 relative tolerance of math.isclose; row space, echelon form, uniqueness, exactness for small integer matrices by quotients of determinants.
C56, C57 duality: cs_conditions as data (variable, equation, right-hand side); the alternative for linear inequalities by Fourier-Motzkin elimination over the rationals (Farkas.v), from it strong duality and the outcome table (DualityProofs.v, SlackProofs.v), from those complementary slackness in both directions.
C58, C59 recognition: is_basic_solution, is_basis_feasible, is_feasible_basic_solution, is_canonical_form_for as in the code, with numpy's truth value of arrays, index errors and broadcasting; exact characterisations, and refutations for the last two.
C60 optimal_value: solve followed by evaluate; from C41, C42 and C45.
C61 random: the drawn numbers and choices are arguments; np.round(x, 2) is rounding to even on exact rationals.
C62 graph_polyhedron: the list of points handed to matplotlib (integer work arrays cut off fractions, math.isclose literal, atan2 order exact). A vertex of a finite intersection of half planes lies on two independent lines (moving both ways otherwise); averages and angular order of extreme points give the boundary order; a linear function is least at a vertex (from the Farkas file).
C63 str(p): texts are lists of code points. A reader (TextSpec: cut, split, read digits) is written independently of the printer; reading the printed text gives the problem, by lemmas on digits, powers of ten, padding, splitting.
C64 StepsModel.v models the steps of an object as a list next to the program, with a state and exception monad; the table of descriptors, the format fields and the printed program are the real ones, the text of a numpy array is a parameter. StepsSpec.v says what a record should tell. Runs of the recording methods are shown equal to the runs of LinearModel.v plus a list of entries; the trace of simplex comes from the invariant of C32.
C65 equality and constructor of UndirectedGraph: dictionary equality characterised by lookups; a relation between states with equal lookups is preserved by every call; traversals agree because sorted enumerations of equal sets are equal; loops of the constructor by induction with a closed form for the weights; the printed text is split back at its separators.
C66 has_spanning_tree is is_connected; a spanning tree is built from the breadth-first order (each later vertex keeps one earlier neighbour), acyclic because the last vertex of a cycle in that order would have two parents. The other three methods are modelled as they fail.
C67 the auxiliary program is given in closed form; feasibility row by row; existence of an optimum by the trichotomy of linear programs (proved without axioms) since it is feasible at x = 0 and bounded below by 0.
C68 one step: cases of the iteration from the simplex development, values of basic solutions read off the constant of the canonical form, exchange of one index by the pivot lemma.
C69 the truth value of an array of comparisons is modelled by its shape (one entry: that entry; several: ValueError; none or incompatible shapes: what the release of numpy answers, a parameter); exactness by cases on the single entries.
C70 the body is the feasibility test followed by nothing; by the totality of the feasibility test.
C71 an object is a linear program or an integer program around one; each method acts on the underlying program, and which kind of object comes back is read off the code; the counterexample for to_sef by a parity argument.
C72 a formulation holds addresses of arrays in the heap model of C44; invariant: its arrays are well-shaped and its cached program, if not stale, is what it compiles to; simulation by the value-level histories of C49.
C73 determinants of network matrices are 0, 1 or -1 by induction on the size (expansion along a column with one entry, or a left kernel vector); so all minors of [A | I | b] are integers bounded by the sum of |b|, the program has moderate_data (minors of [A | I] at most 1), and basic solutions are integers by Cramer's rule.
C74 doubles as numbers m 2^e, rounding as a relation to any nearest double, dot products as an inductive relation over all permutations, groupings and fused operations; integers up to 2^53 are doubles, so no step rounds; the error bound by induction on the derivation.
C75 the container of the start is a parameter of the in-place addition; induction on the rounds.
C76 induction on the list.
C77 an executable rounding function on m 2^e proved to give the nearest double with ties to even; finite, infinite and nan values as four constructors; the fractional part of a double is a double, and no double lies between 1e-10 and its rounding.
C78 the methods as relations over an inductive sum in any order with the operations of C77; an invariant that a sum which ends finite or infinite saw no nan and no infinity of the other sign; simulation by the relations of C74 when sums of absolute values are below 2^1000.
C79 the loops as folds over the augmented matrix; invariant over the pairs compared so far: a row is as given and differs from all earlier ones, or zeroed with a reason; deletion from the end is a filter.
C80 induction over expressions for what evaluation allocates and leaves alone, then over the rows; signs by the lists that where keeps; composition with C49, C28, C41, C42.
C81 inv and @ as relations with a bound on the residuals; the residual of x and the reduced costs bounded by the 1-norm of the data; a contraction argument for the basis; exact canonical forms by minors, so that a nonzero value is at least 1/K.
C82 RoundedSolveModel: relations on top of RoundedModel; the first phase is an instance of the exact-basis argument of C81 for the auxiliary program, whose determinants are subdeterminants of the given one; the value of the first phase is 0 or at least 1/K; dual vectors compared through a second inverse bounded by K; the way back by induction over the split variables.
C83 RoundedRunModel: the control flow of the methods as relations, with every test on computed numbers. Whole numbers with determinants at most K keep the exact numbers behind every test either 0 or at least 1/K away from it, and two different ratios 1/K^2 apart, so the errors decide no test; each iteration makes the choice of the exact iteration, and Bland termination carries over. The search for a completion is followed step by step.
C84 RoundedBranchModel: the recursion as an inductive relation for runs that end and a coinductive one for runs that do not. Basic solutions have a common denominator of at most 10000, so each number is an integer or at least 1e-4 away from one, and errors change neither the test of integrality nor floor and ceil: the tree is one of the exact method. Values of two such points are equal or 1e-8 apart, so the computed values choose an optimum.
C85 RoundedScriptModel composes ScriptModel with RoundedRunModel. Row by row the program has the numbers of the script up to sign, so subdeterminants and weight are those of the numbers as written (RoundedScriptProofs); to_sef keeps the subdeterminants and at most doubles the weight (RoundedSefProofs); then C83 applies.
C86 FlowFloatModel is FlowModel with rounded operations and an arbitrary order of sums. Simulation: every number of the exact run is a multiple of the unit between 0 and the total capacity (invariants of C23 and C26), hence a double, so no operation rounds (FlowFloatProofs). The refutations are runs of the model. For other doubles: the residual network is the rounded one of the flow as long as no path goes backwards, each rounded addition errs by at most 2^-52 times the sum, and the errors are added up path by path (FlowFloatNear); such runs stop because every augmentation by a positive amount takes its narrowest arc one step further in the order negative, below half, from half on, full, and one by a negative amount fills its narrowest arc exactly, a difference of doubles within a factor of two being a double (FlowFloatStop); that nothing is raised needs only the keys of the dictionaries.

## 4. Trusted base

* The kernel of Coq 8.16.1 (`coqc`, re-checked by `coqchk`) and its `vm_compute` reduction, used
  in some examples and witnesses. Nothing is extracted; no plugin other than the ones `mathcomp`
  and the standard library load.
* `Print Assumptions` stands below every property theorem. For every theorem named in
  `MANIFEST.json` it prints "Closed under the global context": no axiom of the standard library
  or of any other library is used, and none is declared here.
* `DetTheory.v` and the files built on it use mathcomp matrices. `coqchk` lists the following
  library items in that context. They are the sealed definitions of mathcomp and of `ssreflect`,
  given with a body behind a module signature; no property theorem depends on them as axioms:
  `Coq.ssr.ssrunder.Under_rel.Over_rel`,
  `Coq.ssr.ssrunder.Under_rel.Under_rel`,
  `Coq.ssr.ssrunder.Under_rel.Under_relE`,
  `Coq.ssr.ssrunder.Under_rel.Under_rel_from_rel`,
  `Coq.ssr.ssrunder.Under_rel.over_rel`,
  `Coq.ssr.ssrunder.Under_rel.over_rel_done`,
  `Coq.ssr.ssrunder.Under_rel.under_rel_done`,
  `mathcomp.fingroup.perm.PermDef.fun_of_perm`,
  `mathcomp.fingroup.perm.PermDef.fun_of_permE`,
  `mathcomp.fingroup.perm.PermDef.perm`,
  `mathcomp.fingroup.perm.PermDef.permE`,
  `mathcomp.ssreflect.bigop.BigOp.bigop`,
  `mathcomp.ssreflect.bigop.BigOp.bigopE`,
  `mathcomp.ssreflect.finfun.FinfunDef.finfun`,
  `mathcomp.ssreflect.finfun.FinfunDef.finfunE`,
  `mathcomp.ssreflect.finset.Imset.imset`,
  `mathcomp.ssreflect.finset.Imset.imset2`,
  `mathcomp.ssreflect.finset.Imset.imset2E`,
  `mathcomp.ssreflect.finset.Imset.imsetE`,
  `mathcomp.ssreflect.finset.SetDef.finset`,
  `mathcomp.ssreflect.finset.SetDef.finsetE`,
  `mathcomp.ssreflect.finset.SetDef.pred_of_set`,
  `mathcomp.ssreflect.finset.SetDef.pred_of_setE`,
  `mathcomp.ssreflect.fintype.CardDef.card`,
  `mathcomp.ssreflect.fintype.CardDef.cardEdef`,
  `mathcomp.ssreflect.fintype.Finite.EnumDef.enum`,
  `mathcomp.ssreflect.fintype.Finite.EnumDef.enumDef`,
  `mathcomp.ssreflect.fintype.SubsetDef.subset`,
  `mathcomp.ssreflect.fintype.SubsetDef.subsetEdef`,
  `mathcomp.ssreflect.generic_quotient.MPi.E`,
  `mathcomp.ssreflect.generic_quotient.MPi.f`,
  `mathcomp.ssreflect.generic_quotient.Pi.E`,
  `mathcomp.ssreflect.generic_quotient.Pi.f`,
  `mathcomp.ssreflect.generic_quotient.Repr.E`,
  `mathcomp.ssreflect.generic_quotient.Repr.f`,
  `mathcomp.ssreflect.tuple.FinTuple.enum`,
  `mathcomp.ssreflect.tuple.FinTuple.enumP`,
  `mathcomp.ssreflect.tuple.FinTuple.size_enum`.
* The reading of the source. Each model definition cites the lines it follows; the proofs say
  nothing about code whose model is wrong. Python and numpy themselves (dict order, set
  semantics, regular expressions, broadcasting, truth value of arrays, rounding to even, format
  fields) are modelled by hand from their documentation.

## 5. What is modelled

| File in `/repo/pytimize` | Modelled | Not modelled |
| --- | --- | --- |
| `utilities/_comparator.py` | all of it (C01, C02; on doubles with overflow, infinities and nan C77) | |
| `utilities/_disjoint.py` | all of it (C03, C04) | |
| `parsers/_graph.py`, `_linear.py` | all of it (C05-C08, C76) | characters beyond 255 |
| `parsers/_description.py` | `render_descriptor` and its table (C64) | |
| `parsers/_symbol.py` | the table, as used by `__repr__` (C63) | |
| `graphs/_undirected.py` | all methods with a body (C09-C18, C65, C66) | `is_binary_tree`, `remove_vertex` (bodies are `pass`) |
| `graphs/_directed.py` | all methods with a body (C19-C27) | `remove_node` and the methods at lines 568-605 (bodies are `pass`) |
| `programs/_linear.py` | constructor, setters, conversions, bases, simplex, two phases, dual, certificates, copies, `__repr__`, steps, `random`, `graph_polyhedron`, auxiliary program, single iterations, `__eq__`, `is_solution_optimal`, `__remove_dependent_rows` (C28-C45, C56-C64, C67-C70, C79) | calls of matplotlib after the points are computed |
| `programs/_integer.py` | all of it, with the methods it inherits (C46, C71) | |
| `programs/_unconstrained.py` | all of it (C50-C52, C54, C75) | length-one broadcasting, gradients returned as lists |
| `formulations/` | variables, equations, constraints, objectives, `minimize`, `maximize`, the integer variants, delegation to the program (C47-C49, C72), whole scripts (C80) | |
| `programs/_linear.py`, rref | `to_rref`, `is_in_rref` (C53, C55) | numpy dtypes other than float64 |

Simplifications that apply everywhere:

* floating-point numbers are exact rationals; `nan`, infinities and rounding errors do not occur.
  The exceptions are C74, `evaluate`, `is_feasible` and the `verify_` methods with every operation
  rounded to a nearest double and any order of additions (no overflow, float64 arrays), C77, the
  comparator on doubles, infinities and `nan`, C78, the methods of C74 with overflow,
  infinities and `nan`, C81, `simplex` with any error up to a bound in every result of
  `numpy.linalg.inv` and of matrix products (finite numbers; the ratio test may choose any row),
  C82, the same for `two_phase_simplex` and `solve`, C83, whole runs of these methods with
  such errors also in determinants and ratios, including exceptions and termination, C84, whole
  runs of `branch_and_bound` on top of C83, C85, modelling scripts on top of C83, and C86, the two
  maximum flow algorithms with every addition and subtraction rounded to a nearest double (no overflow).
  Tolerances are kept, so a statement about `isclose` is about the real tolerance on exact numbers;
* names are strings of code points 0 to 255; printed programs are lists of code points;
* views of numpy arrays are modelled where the code makes them (transposes, stored arguments,
  C44); other overlapping views are not;
* user functions (gradients, sort keys) are total and have no effects;
* the text that numpy prints for an array is an arbitrary function.
