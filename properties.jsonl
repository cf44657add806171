{"id": "C01", "title": "Tolerant comparisons form two complementary pairs that bracket the exact order", "statement": "For scalars, is_close_compare(v,'>=',t) is exactly the negation of is_close_compare(v,'<',t), and '<=' exactly the negation of '>'. The non-strict forms accept everything the exact order accepts, the strict forms accept only what the exact order accepts, and every disagreement with the exact order lies within the documented tolerance (1e-10 when t is 0, 1e-8 + 1e-5*|t| otherwise). '>=' is monotone in v and '<=' antitone. Any other operator raises ValueError. For arrays the result is the conjunction over the entries.", "quantifier": "all rational values v, tests t, operators, arrays of any length", "why_tests_cant": "The tolerance boundary is a measure-zero set of inputs; tests only sample a few values on each side.", "anchors": ["pytimize/utilities/_comparator.py:Comparator.is_close_compare", "pytimize/utilities/_comparator.py:Comparator.is_close_to_zero", "pytimize/utilities/_comparator.py:Comparator.is_negative", "pytimize/utilities/_comparator.py:Comparator.is_positive"]}
{"id": "C02", "title": "is_integer accepts exactly the numbers within 1e-10 of an integer", "statement": "Comparator.is_integer(v) is true if and only if some integer lies strictly closer than 1e-10 to v; for an array, if and only if this holds for every entry.", "quantifier": "all rational values of either sign and any magnitude, arrays of any length", "why_tests_cant": "The value range is infinite and the interesting cases (just below an integer, negative values) are boundary cases.", "anchors": ["pytimize/utilities/_comparator.py:Comparator.is_integer"]}
{"id": "C03", "title": "DisjointSet.find answers connectivity under every history of unions and finds", "statement": "After construction from a duplicate-free list and any sequence of union and find calls, find(a) and find(b) return the same representative if and only if a and b are linked by the union calls made so far (reflexive-symmetric-transitive closure). find always returns a member of a's class, always returns normally for members, and calls naming an unknown element raise ValueError and change nothing.", "quantifier": "all duplicate-free item lists and all finite call histories", "why_tests_cant": "Depends on the whole history of calls and on the internal shape the earlier calls left behind.", "anchors": ["pytimize/utilities/_disjoint.py:DisjointSet.find", "pytimize/utilities/_disjoint.py:DisjointSet.union", "pytimize/utilities/_disjoint.py:DisjointSet.__init__"]}
{"id": "C04", "title": "DisjointSet path compression and union by rank keep the structure shallow and find observationally pure", "statement": "In every reachable state a find call never changes the answer of any later find, parent links never form a cycle, rank strictly increases along parent links, and a representative of rank r heads a class of at least 2^r elements, so ranks never exceed log2 of the number of items.", "quantifier": "all reachable states over all histories", "why_tests_cant": "A cycle or a broken rank invariant appears only after particular long histories.", "anchors": ["pytimize/utilities/_disjoint.py:DisjointSet.find", "pytimize/utilities/_disjoint.py:DisjointSet.union"]}
{"id": "C05", "title": "GraphParser.parse inverts every formatted edge list", "statement": "For each of the four notations (ab, a-b, ab:w, a-b:w), writing any nonempty list of edges in that notation separated by single whitespace and parsing it gives back exactly those edges in that order with those weights (weight 0 in the unweighted notations).", "quantifier": "all nonempty edge lists of any length, all word-character names, all decimal weights", "why_tests_cant": "Greedy regular-expression matching across token boundaries depends on every neighbouring token; the token space is infinite.", "anchors": ["pytimize/parsers/_graph.py:GraphParser.parse", "pytimize/parsers/_graph.py:GraphParser.get_expression_type"]}
{"id": "C06", "title": "GraphParser accepts exactly the four notations", "statement": "get_expression_type returns 0..3 exactly on the strings of the corresponding notation (plus an optional final newline), the four languages are tried in order, and parse raises ValueError on every other string.", "quantifier": "all strings", "why_tests_cant": "Rejection must hold for every string outside the language.", "anchors": ["pytimize/parsers/_graph.py:GraphParser.get_expression_type", "pytimize/parsers/_graph.py:GraphParser.parse"]}
{"id": "C07", "title": "LinearParser.parse reads back the coefficients of a written linear expression", "statement": "For every list of terms with distinct indices >= 1, writing the terms as c x_i joined by their signs and parsing yields a vector whose entry i-1 is the coefficient of x_i and whose other entries are 0, of length the largest index (or the given size).", "quantifier": "all term lists of any length, all decimal coefficients, all distinct positive indices", "why_tests_cant": "Infinite family of expressions; greedy matching interacts between terms.", "anchors": ["pytimize/parsers/_linear.py:LinearParser.parse", "pytimize/parsers/_linear.py:LinearParser.validate_expression"]}
{"id": "C08", "title": "LinearParser rejects malformed expressions and out-of-range indices", "statement": "parse raises an exception for every string that is not a signed sum of terms with positive indices, and never returns a vector in which a coefficient is stored at a position other than its index.", "quantifier": "all strings", "why_tests_cant": "Needs every malformed string; particular characters inside a character class or index 0 are easy to miss.", "anchors": ["pytimize/parsers/_linear.py:LinearParser.parse", "pytimize/parsers/_linear.py:LinearParser.validate_expression"]}
{"id": "C09", "title": "UndirectedGraph keeps adjacency, edges and vertices consistent under every sequence of mutations", "statement": "In every state reachable through the constructor and add_edge, add_vertex, remove_edge, set_edge_weight, set_vertex_weight, the adjacency sets are symmetric and agree with the edge dictionary, edge keys are sorted pairs of distinct nonempty vertices, and every endpoint is a vertex. A call that raises leaves the graph unchanged.", "quantifier": "all finite histories of calls with all arguments", "why_tests_cant": "Consistency is a property of all histories.", "anchors": ["pytimize/graphs/_undirected.py:UndirectedGraph.add_edge", "pytimize/graphs/_undirected.py:UndirectedGraph.add_vertex", "pytimize/graphs/_undirected.py:UndirectedGraph.remove_edge", "pytimize/graphs/_undirected.py:UndirectedGraph.__init__"]}
{"id": "C10", "title": "Undirected edge queries ignore endpoint order and reads return the last write", "statement": "has_edge, get_edge_weight and set_edge_weight give the same result for (u,v) and (v,u); after set_edge_weight(e,w) or add_edge(e,w) reading e gives w, every other edge and every vertex weight is unchanged; after a successful remove_edge(e), has_edge(e) is false.", "quantifier": "all graphs reachable by the API, all edges and weights", "why_tests_cant": "Frame conditions quantify over every other key of an arbitrary graph.", "anchors": ["pytimize/graphs/_undirected.py:UndirectedGraph.has_edge", "pytimize/graphs/_undirected.py:UndirectedGraph.set_edge_weight", "pytimize/graphs/_undirected.py:UndirectedGraph.get_edge_weight", "pytimize/graphs/_undirected.py:UndirectedGraph.remove_edge"]}
{"id": "C11", "title": "UndirectedGraph.cut returns exactly the boundary edges and degree counts them", "statement": "For a set S of vertices, cut(S) is exactly the set of edges with one endpoint in S and the other outside, degree(S) is its size, and cut(S) equals cut of the complement. For a single vertex given by name, cut(v) is the set of edges incident to v.", "quantifier": "all reachable graphs, all vertex sets, all vertex names", "why_tests_cant": "Quantifies over all graphs and subsets.", "anchors": ["pytimize/graphs/_undirected.py:UndirectedGraph.cut", "pytimize/graphs/_undirected.py:UndirectedGraph.degree"]}
{"id": "C12", "title": "bfs enumerates exactly the reachable vertices, once each, in order of distance", "statement": "For every start vertex, bfs(start) lists each vertex reachable from start exactly once and no other vertex, starts with start, and lists vertices in non-decreasing distance from start. dfs(start) lists the reachable vertices in depth-first order, and traverse with method rng lists all vertices.", "quantifier": "all reachable graphs of any size and all start vertices", "why_tests_cant": "Quantifies over all graph shapes; ordering bugs need specific shapes.", "anchors": ["pytimize/graphs/_undirected.py:UndirectedGraph.traverse", "pytimize/graphs/_undirected.py:UndirectedGraph.bfs", "pytimize/graphs/_undirected.py:UndirectedGraph.dfs"]}
{"id": "C13", "title": "is_connected decides connectivity", "statement": "is_connected() is true if and only if the graph has at least one vertex and every two vertices are joined by a walk.", "quantifier": "all reachable graphs", "why_tests_cant": "All graph shapes.", "anchors": ["pytimize/graphs/_undirected.py:UndirectedGraph.is_connected", "pytimize/graphs/_undirected.py:UndirectedGraph.has_spanning_tree"]}
{"id": "C14", "title": "is_tree decides treeness", "statement": "is_tree() is true if and only if the graph is nonempty, connected and contains no cycle, whatever order the runtime enumerates adjacency sets in.", "quantifier": "all reachable graphs, all set iteration orders", "why_tests_cant": "Set iteration order is randomised per process; all graph shapes.", "anchors": ["pytimize/graphs/_undirected.py:UndirectedGraph.is_tree"]}
{"id": "C15", "title": "is_cyclic decides the existence of a cycle", "statement": "is_cyclic() is true if and only if the graph contains a cycle.", "quantifier": "all reachable graphs, all set iteration orders", "why_tests_cant": "All graph shapes and iteration orders.", "anchors": ["pytimize/graphs/_undirected.py:UndirectedGraph.is_cyclic"]}
{"id": "C16", "title": "formulate_max_stable_set encodes exactly the stable sets of the graph", "statement": "For every nonempty graph the returned integer program's nonnegative integral feasible points are exactly the 0/1 indicator vectors, under the returned vertex numbering, of the stable sets of the graph, and the objective value of a point is the total weight of its set.", "quantifier": "all nonempty reachable graphs and all vectors", "why_tests_cant": "The formulation must be right for every graph and every point.", "anchors": ["pytimize/graphs/_undirected.py:UndirectedGraph.formulate_max_stable_set"]}
{"id": "C17", "title": "UndirectedGraph.copy is equal to and independent of the original", "statement": "copy() returns a graph equal to the original, and no later mutation of one changes the other.", "quantifier": "all graphs and all later histories of calls on either object", "why_tests_cant": "Aliasing shows up only for particular later histories.", "anchors": ["pytimize/graphs/_undirected.py:UndirectedGraph.copy", "pytimize/graphs/_undirected.py:UndirectedGraph.__eq__"]}
{"id": "C18", "title": "shortest_path returns a shortest path", "statement": "shortest_path(s,t) returns the edges of a minimum-weight path from s to t for vertices s, t in the same component.", "quantifier": "all graphs with nonnegative weights and all vertex pairs", "why_tests_cant": "All graphs.", "anchors": ["pytimize/graphs/_undirected.py:UndirectedGraph.shortest_path"]}
{"id": "C19", "title": "DirectedGraph keeps arcs, adjacency and nodes consistent under every sequence of mutations", "statement": "In every state reachable through the constructor, add_arc, add_node, remove_arc (with or without remove_nodes), set_arc_weight and set_node_weight, adjacency sets agree with the arc dictionary, endpoints of arcs are nodes with distinct names, and a call that raises leaves the digraph unchanged.", "quantifier": "all finite histories of calls with all arguments", "why_tests_cant": "All histories, including failing calls.", "anchors": ["pytimize/graphs/_directed.py:DirectedGraph.add_arc", "pytimize/graphs/_directed.py:DirectedGraph.add_node", "pytimize/graphs/_directed.py:DirectedGraph.remove_arc", "pytimize/graphs/_directed.py:DirectedGraph.__init__"]}
{"id": "C20", "title": "Directed cuts and degrees count exactly the crossing arcs", "statement": "cut(S) is exactly the set of arcs leaving S, ncut(S) exactly those entering S, outdegree and indegree are their sizes, connections is their sum, cut(S) = ncut(complement of S), and summed over all nodes indegree and outdegree each give the number of arcs.", "quantifier": "all reachable digraphs and node sets", "why_tests_cant": "All digraphs and subsets.", "anchors": ["pytimize/graphs/_directed.py:DirectedGraph.cut", "pytimize/graphs/_directed.py:DirectedGraph.ncut", "pytimize/graphs/_directed.py:DirectedGraph.indegree", "pytimize/graphs/_directed.py:DirectedGraph.outdegree", "pytimize/graphs/_directed.py:DirectedGraph.connections"]}
{"id": "C21", "title": "create_residual builds the residual network", "statement": "For every digraph and feasible flow, create_residual(flow) has exactly the arcs of the residual network (forward arcs with remaining capacity, backward arcs with the flow value) and raises on infeasible or negative input.", "quantifier": "all digraphs, capacities and flows", "why_tests_cant": "All networks; antiparallel arcs are a special case.", "anchors": ["pytimize/graphs/_directed.py:DirectedGraph.create_residual", "pytimize/graphs/_directed.py:DirectedGraph._compute_residual"]}
{"id": "C22", "title": "ford_fulkerson returns a feasible flow with the reported value", "statement": "For every digraph with nonnegative capacities, ford_fulkerson(s,t) returns a flow within capacities on every arc, conserved at every node except s and t, whose net value out of s is the returned value, and leaves the digraph unchanged.", "quantifier": "all digraphs, capacities and source/sink pairs", "why_tests_cant": "All networks.", "anchors": ["pytimize/graphs/_directed.py:DirectedGraph.ford_fulkerson", "pytimize/graphs/_directed.py:DirectedGraph._bfs_path"]}
{"id": "C23", "title": "ford_fulkerson's flow is maximum", "statement": "The returned value is at least the value of every feasible flow, and equals the capacity of some cut separating s from t.", "quantifier": "all digraphs, capacities, source/sink pairs and competing flows", "why_tests_cant": "Quantifies over all competing flows.", "anchors": ["pytimize/graphs/_directed.py:DirectedGraph.ford_fulkerson"]}
{"id": "C24", "title": "ford_fulkerson always terminates", "statement": "For every digraph with rational capacities ford_fulkerson returns after finitely many augmentations.", "quantifier": "all digraphs with rational capacities", "why_tests_cant": "Termination cannot be observed by a finite test.", "anchors": ["pytimize/graphs/_directed.py:DirectedGraph.ford_fulkerson", "pytimize/graphs/_directed.py:DirectedGraph._bfs_path"]}
{"id": "C25", "title": "ford_fulkerson handles antiparallel arcs and arbitrary node names", "statement": "The flow returned by ford_fulkerson is feasible and maximum also when both (u,v) and (v,u) are arcs, and when source or sink have names longer than one character.", "quantifier": "all digraphs with nonnegative capacities", "why_tests_cant": "Wrong results appear only on special shapes or names.", "anchors": ["pytimize/graphs/_directed.py:DirectedGraph.ford_fulkerson", "pytimize/graphs/_directed.py:DirectedGraph._compute_residual", "pytimize/graphs/_directed.py:DirectedGraph.cut"]}
{"id": "C26", "title": "preflow_push returns a maximum flow", "statement": "For every digraph with nonnegative capacities and no antiparallel arcs, preflow_push(s,t) returns a feasible, conserved flow of maximum value and reports that value, the same value as ford_fulkerson.", "quantifier": "all digraphs, capacities, source/sink pairs", "why_tests_cant": "All networks.", "anchors": ["pytimize/graphs/_directed.py:DirectedGraph.preflow_push"]}
{"id": "C27", "title": "preflow_push always terminates normally", "statement": "preflow_push returns normally after finitely many pushes and relabels, for every digraph with nonnegative capacities, including the digraph with only source and sink.", "quantifier": "all digraphs with rational capacities", "why_tests_cant": "Termination cannot be tested.", "anchors": ["pytimize/graphs/_directed.py:DirectedGraph.preflow_push"]}
{"id": "C28", "title": "LinearProgram's constructor accepts exactly the well-formed programs", "statement": "The constructor succeeds if and only if dimensions agree, free and negative index lists are duplicate-free, in range and disjoint, inequalities are among =, <=, >= with one per row, and the objective is max or min; then the properties read back what was given and is_sef holds exactly for max programs with only equalities and nonnegative variables.", "quantifier": "all arguments", "why_tests_cant": "All malformed combinations must be rejected.", "anchors": ["pytimize/programs/_linear.py:LinearProgram.__init__"]}
{"id": "C29", "title": "to_sef preserves the program", "statement": "to_sef() yields a program in standard equality form such that every feasible point of the original extends to a feasible point of the SEF program and every feasible point of the SEF program maps back (dropping slacks, merging split variables, negating) to a feasible point of the original, with objective values related by the same fixed rule, so optima correspond.", "quantifier": "all well-formed programs and all points", "why_tests_cant": "Infinitely many programs and points.", "anchors": ["pytimize/programs/_linear.py:LinearProgram.to_sef", "pytimize/programs/_linear.py:LinearProgram.solve"]}
{"id": "C30", "title": "to_canonical_form preserves the program", "statement": "For every valid basis the canonical form has identity columns and zero objective coefficients on the basis, the same solutions of the equality system and the same objective value at each of them.", "quantifier": "all SEF programs, bases and points", "why_tests_cant": "All programs and points.", "anchors": ["pytimize/programs/_linear.py:LinearProgram.to_canonical_form"]}
{"id": "C31", "title": "compute_basic_solution returns the basic solution of the basis", "statement": "compute_basic_solution(B) is the unique solution of Ax=b that vanishes off B, whatever the order in which B lists its indices.", "quantifier": "all programs with full-rank basis, all orderings of the basis", "why_tests_cant": "All matrices and orderings.", "anchors": ["pytimize/programs/_linear.py:LinearProgram.compute_basic_solution", "pytimize/programs/_linear.py:LinearProgram.is_basis"]}
{"id": "C32", "title": "simplex returns an optimal solution when it reports one", "statement": "If simplex(B) returns a solution x then x is feasible and no feasible point has a larger objective value; the returned basis is a basis whose basic solution is x, and the certificate y proves it (yA >= c and yb = cx).", "quantifier": "all SEF programs, starting bases and competing feasible points", "why_tests_cant": "Optimality quantifies over all feasible points.", "anchors": ["pytimize/programs/_linear.py:LinearProgram.simplex", "pytimize/programs/_linear.py:LinearProgram.simplex_iteration"]}
{"id": "C33", "title": "simplex reports unboundedness only with a valid ray", "statement": "If simplex from a feasible basis returns no basis, the certificate is a feasible point and a ray along which the objective increases without bound while feasibility is kept.", "quantifier": "all SEF programs and feasible starting bases", "why_tests_cant": "Unboundedness quantifies over arbitrarily large points.", "anchors": ["pytimize/programs/_linear.py:LinearProgram.simplex", "pytimize/programs/_linear.py:LinearProgram.simplex_iteration"]}
{"id": "C34", "title": "simplex terminates from every feasible basis (Bland's rule)", "statement": "From every feasible basis, simplex returns after finitely many iterations and raises no exception.", "quantifier": "all SEF programs, including degenerate ones, and all feasible bases", "why_tests_cant": "Cycling appears only on special degenerate programs; termination is not testable.", "anchors": ["pytimize/programs/_linear.py:LinearProgram.simplex", "pytimize/programs/_linear.py:LinearProgram.simplex_iteration"]}
{"id": "C35", "title": "two_phase_simplex decides every program in SEF", "statement": "For every SEF program two_phase_simplex returns an optimal solution, or a valid certificate of unboundedness, or a valid certificate of infeasibility, according to which of the three holds.", "quantifier": "all SEF programs", "why_tests_cant": "All programs, including degenerate and redundant ones.", "anchors": ["pytimize/programs/_linear.py:LinearProgram.two_phase_simplex", "pytimize/programs/_linear.py:LinearProgram.auxiliary"]}
{"id": "C36", "title": "verify_infeasibility accepts only genuine certificates", "statement": "If verify_infeasibility(y) is true then no point is feasible.", "quantifier": "all SEF programs, certificates and points", "why_tests_cant": "Quantifies over all points.", "anchors": ["pytimize/programs/_linear.py:LinearProgram.verify_infeasibility"]}
{"id": "C37", "title": "verify_unboundedness accepts only genuine certificates", "statement": "If verify_unboundedness(x,d) is true then the objective is unbounded above over the feasible points.", "quantifier": "all SEF programs, points and directions", "why_tests_cant": "Quantifies over arbitrarily large points.", "anchors": ["pytimize/programs/_linear.py:LinearProgram.verify_unboundedness"]}
{"id": "C38", "title": "verify_optimality accepts only vectors bounding the objective", "statement": "If verify_optimality(y) is true then every feasible x satisfies cx <= yb, so a feasible x with cx = yb is optimal.", "quantifier": "all SEF programs, certificates, points", "why_tests_cant": "Quantifies over all feasible points.", "anchors": ["pytimize/programs/_linear.py:LinearProgram.verify_optimality"]}
{"id": "C39", "title": "dual satisfies weak duality and is an involution", "statement": "For every program p, every feasible x of p and every feasible y of p.dual(), the objective of x (without the constant) is bounded by the objective of y in the direction given by the objective; and p.dual().dual() has the same constraints, objective, variable signs as p.", "quantifier": "all well-formed programs with any mix of inequalities and variable signs, all feasible pairs", "why_tests_cant": "All sign combinations and points.", "anchors": ["pytimize/programs/_linear.py:LinearProgram.dual"]}
{"id": "C40", "title": "is_feasible decides feasibility", "statement": "is_feasible(x) is true if and only if x satisfies every constraint and every sign restriction (equalities up to the documented relative tolerance).", "quantifier": "all programs and points", "why_tests_cant": "All programs and points.", "anchors": ["pytimize/programs/_linear.py:LinearProgram.is_feasible"]}
{"id": "C41", "title": "solve returns only optimal solutions", "statement": "If solve() returns a vector x then x is feasible for the original program and no feasible point has a better objective value, for max and min programs with any mix of inequalities, free and negative variables.", "quantifier": "all well-formed programs and competing points", "why_tests_cant": "Optimality quantifies over all feasible points.", "anchors": ["pytimize/programs/_linear.py:LinearProgram.solve", "pytimize/programs/_linear.py:LinearProgram.optimal_value"]}
{"id": "C42", "title": "solve finds an optimum whenever one exists", "statement": "If the program has an optimal solution, solve() returns one; it returns None only for infeasible or unbounded programs.", "quantifier": "all well-formed programs", "why_tests_cant": "All programs.", "anchors": ["pytimize/programs/_linear.py:LinearProgram.solve"]}
{"id": "C43", "title": "add_constraint and add_variable extend the program as described", "statement": "add_constraint(a,op,v) yields a program whose feasible points are those of the original that satisfy a.x op v; add_variable appends a variable with the given column, coefficient and sign restriction; with in_place false the receiver is unchanged.", "quantifier": "all programs and points", "why_tests_cant": "All programs and points.", "anchors": ["pytimize/programs/_linear.py:LinearProgram.add_constraint", "pytimize/programs/_linear.py:LinearProgram.add_variable"]}
{"id": "C44", "title": "Copies and non-in-place operations never change the receiver", "statement": "copy, to_sef, to_canonical_form, add_constraint, add_variable, simplex_iteration with in_place false, and dual, return programs such that later in-place operations on the result do not change the receiver or the caller's arrays.", "quantifier": "all programs and all later histories of calls", "why_tests_cant": "Aliasing shows only for particular histories.", "anchors": ["pytimize/programs/_linear.py:LinearProgram.copy", "pytimize/programs/_linear.py:LinearProgram.dual", "pytimize/programs/_linear.py:LinearProgram.__init__", "pytimize/programs/_integer.py:IntegerProgram.relax"]}
{"id": "C45", "title": "simplex leaves the program as it found it", "statement": "A call of simplex or two_phase_simplex, whether it returns or raises, leaves the program's data unchanged.", "quantifier": "all programs, bases and outcomes including exceptions", "why_tests_cant": "Exceptional paths are rarely tested.", "anchors": ["pytimize/programs/_linear.py:LinearProgram.simplex", "pytimize/programs/_linear.py:LinearProgram.two_phase_simplex"]}
{"id": "C46", "title": "branch_and_bound returns an optimal integral solution", "statement": "If branch_and_bound() returns a vector, it is integral on the integral variables, feasible, and no feasible integral point has a better objective value, for max and min programs and any variable signs.", "quantifier": "all integer programs and competing points", "why_tests_cant": "Optimality quantifies over all integral feasible points.", "anchors": ["pytimize/programs/_integer.py:IntegerProgram.branch_and_bound", "pytimize/programs/_integer.py:IntegerProgram.relax"]}
{"id": "C47", "title": "Linear expressions denote the arithmetic the user wrote", "statement": "An expression built from variables and numbers with +, -, unary minus and scalar * denotes the affine function given by ordinary arithmetic, and building further expressions from it does not change it.", "quantifier": "all expressions and all variable assignments", "why_tests_cant": "Infinite expression space; mutation of shared subexpressions.", "anchors": ["pytimize/formulations/linear/_equation.py:LinearEquation", "pytimize/formulations/linear/_variable.py:Variable"]}
{"id": "C48", "title": "Comparing expressions yields the equivalent linear constraint", "statement": "lhs <= rhs, lhs >= rhs, lhs == rhs yield a constraint satisfied by exactly the assignments that satisfy the comparison of the two stored expressions.", "quantifier": "all pairs of expressions and all assignments", "why_tests_cant": "All expressions and assignments; padding of unequal lengths.", "anchors": ["pytimize/formulations/linear/_equation.py:LinearEquation._generate_constraint", "pytimize/formulations/linear/_equation.py:LinearEquation._broadcast_subtract", "pytimize/formulations/linear/_utilities.py:pad_right"]}
{"id": "C49", "title": "subject_to / where compile to the program the user described", "statement": "minimize/maximize(e).subject_to(cs).where(vs).program has objective e, feasible points exactly those that satisfy all constraints in cs and all sign constraints in vs (variables not mentioned are free), and where raises on duplicate or contradictory sign constraints without changing the formulation.", "quantifier": "all objectives, constraint lists, sign-constraint histories, points", "why_tests_cant": "All formulations; failing calls.", "anchors": ["pytimize/formulations/linear/_objective.py:ObjectiveFunction.subject_to", "pytimize/formulations/linear/_abstract.py:AbstractLinearProgram.where", "pytimize/formulations/linear/_abstract.py:AbstractLinearProgram.program", "pytimize/formulations/linear/_abstract.py:AbstractLinearProgram.whereAllPositive", "pytimize/formulations/linear/_abstract.py:AbstractLinearProgram.whereAllNegative"]}
{"id": "C50", "title": "steepest_descent decreases the objective at every iteration and stops only at its stopping rule", "statement": "For a min program with exact gradient, each iterate satisfies the Armijo condition, the objective never increases from one iterate to the next, at most max_iteration iterations are made, and on return either the gradient norm is within tolerance or max_iteration iterations were made.", "quantifier": "all functions, starting points and parameters", "why_tests_cant": "All functions.", "anchors": ["pytimize/programs/_unconstrained.py:UnconstrainedProgram.steepest_descent"]}
{"id": "C51", "title": "newton_method solves quadratics in one step and stops only at its stopping rule", "statement": "On a quadratic with nonsingular Hessian newton_method returns the stationary point after one step; in general on return either the gradient norm is within tolerance or max_iteration iterations were made.", "quantifier": "all quadratics, starting points, tolerances", "why_tests_cant": "All functions.", "anchors": ["pytimize/programs/_unconstrained.py:UnconstrainedProgram.newton_method"]}
{"id": "C52", "title": "UnconstrainedProgram with objective max maximizes", "statement": "With objective max, the methods return a maximizer of f (when the method converges) rather than its negation or a minimizer.", "quantifier": "all functions", "why_tests_cant": "All functions.", "anchors": ["pytimize/programs/_unconstrained.py:UnconstrainedProgram.__init__", "pytimize/programs/_unconstrained.py:UnconstrainedProgram.steepest_descent", "pytimize/programs/_unconstrained.py:UnconstrainedProgram.newton_method"]}
{"id": "C53", "title": "to_rref row-reduces to reduced row echelon form", "statement": "to_rref(M) returns a matrix in reduced row echelon form with the same row space (the same homogeneous solutions) as M.", "quantifier": "all matrices", "why_tests_cant": "All matrices.", "anchors": ["pytimize/programs/_linear.py:LinearProgram.to_rref", "pytimize/programs/_linear.py:LinearProgram.is_in_rref"]}
{"id": "C54", "title": "The unconstrained methods leave the caller's starting point unchanged", "statement": "After steepest_descent or newton_method returns, the object passed as starting point has the contents it had before the call.", "quantifier": "all functions, starting points and parameters", "why_tests_cant": "Needs every call; in-place assignment is invisible in the returned value.", "anchors": ["pytimize/programs/_unconstrained.py:UnconstrainedProgram.steepest_descent", "pytimize/programs/_unconstrained.py:UnconstrainedProgram.newton_method"]}
{"id": "C55", "title": "is_in_rref recognises reduced row echelon form", "statement": "is_in_rref is true exactly when the constraint matrix is in reduced row echelon form, including for every matrix returned by to_rref.", "quantifier": "all matrices", "why_tests_cant": "All matrices.", "anchors": ["pytimize/programs/_linear.py:LinearProgram.is_in_rref", "pytimize/programs/_linear.py:LinearProgram.to_rref"]}
{"id": "C56", "title": "cs_conditions gives the complementary slackness conditions", "statement": "For every program p, cs_conditions has exactly one line for every constraint of p that is not an equation (its dual variable is 0, or the constraint is tight) and one for every variable of p that is not free (it is 0, or its dual constraint is tight). A feasible point of p and a feasible point of p.dual() are both optimal exactly when they satisfy every line, and a feasible point of p is optimal exactly when some feasible point of p.dual() satisfies every line together with it.", "quantifier": "all programs a user can build, all pairs of points", "why_tests_cant": "All programs and points; the converse direction needs strong duality.", "anchors": ["pytimize/programs/_linear.py:LinearProgram.cs_conditions", "pytimize/programs/_linear.py:LinearProgram.dual"]}
{"id": "C57", "title": "the dual decides the outcome of a program", "statement": "Every program is infeasible, unbounded, or has an optimal solution. If p has an optimal solution so has p.dual(), and conversely, with equal optimal values; if one of the two is unbounded the other is infeasible; if one is infeasible the other is infeasible or unbounded.", "quantifier": "all programs a user can build with any mix of inequalities and signs", "why_tests_cant": "Quantifies over all programs and all feasible points (strong duality).", "anchors": ["pytimize/programs/_linear.py:LinearProgram.dual"]}
{"id": "C58", "title": "Basic solutions and feasible bases are recognised", "statement": "For every program in SEF and every basis, is_basic_solution(x, basis) is true exactly when x is zero off the basis and solves Ax = b; it accepts what compute_basic_solution returns; is_basis_feasible(basis) is true exactly when the basic solution is nonnegative; is_feasible_basic_solution(x, basis) is true exactly when x is the nonnegative basic solution.", "quantifier": "all programs in SEF, all bases in any order, all vectors", "why_tests_cant": "All programs, bases and vectors.", "anchors": ["pytimize/programs/_linear.py:LinearProgram.is_basic_solution", "pytimize/programs/_linear.py:LinearProgram.is_basis_feasible", "pytimize/programs/_linear.py:LinearProgram.is_feasible_basic_solution"]}
{"id": "C59", "title": "is_canonical_form_for recognises canonical forms", "statement": "is_canonical_form_for(basis) is true exactly when the columns of the basis form the identity and their costs are zero; in particular for every program returned by to_canonical_form(basis).", "quantifier": "all programs and bases", "why_tests_cant": "All programs and bases.", "anchors": ["pytimize/programs/_linear.py:LinearProgram.is_canonical_form_for", "pytimize/programs/_linear.py:LinearProgram.to_canonical_form"]}
{"id": "C60", "title": "optimal_value returns the optimal value", "statement": "optimal_value returns the objective value, constant included, of an optimal solution when there is one, and None exactly when the program is infeasible or unbounded.", "quantifier": "all programs", "why_tests_cant": "All programs and all feasible points.", "anchors": ["pytimize/programs/_linear.py:LinearProgram.optimal_value"]}
{"id": "C61", "title": "random always builds a valid program of the requested size", "statement": "For every outcome of the random generators, random(rows, columns, magnitude) returns a well-formed program with that many constraints and variables, whose numbers are the drawn numbers times magnitude rounded to two decimals and whose relations and variable signs are the drawn ones.", "quantifier": "all sizes, magnitudes and outcomes of the generators", "why_tests_cant": "The outcomes of the generators cannot be enumerated.", "anchors": ["pytimize/programs/_linear.py:LinearProgram.random"]}
{"id": "C62", "title": "graph_polyhedron draws the feasible region", "statement": "For a program with two variables and only <= (or only >=) constraints, graph_polyhedron draws a closed line through exactly the vertices of the feasible region within the square of the given limit, in an order that runs around the region, so that the region is what lies inside the line; it leaves the program as it was, and refuses other programs with ArithmeticError.", "quantifier": "all programs with two variables, all limits, all points of the plane", "why_tests_cant": "All programs and all points; needs that every vertex of a polygon is an intersection of two lines and that polar order around the average is the boundary order.", "anchors": ["pytimize/programs/_linear.py:LinearProgram.graph_polyhedron"]}
{"id": "C63", "title": "The printed form of a program says what the program is", "statement": "str(p) never raises, and a reader of the text finds the sense, the relations, the sign of every variable and every number of the program: numbers with at most three decimals and at most 10^10 exactly, other numbers with a relative error of at most 1/2000, numbers below 1e-10 as zero. Hence programs that print alike are alike.", "quantifier": "all programs a user can obtain, all numbers", "why_tests_cant": "All programs and numbers; needs that the text can be read back unambiguously whatever the widths of the columns, exponents and subscripts.", "anchors": ["pytimize/programs/_linear.py:LinearProgram.__repr__", "pytimize/programs/_linear.py:LinearProgram._format_number", "pytimize/parsers/_symbol.py:SymbolParser.subscript"]}
{"id": "C64", "title": "The recorded steps tell what the method did and leave the answer unchanged", "statement": "The methods of a linear program that take show_steps compute the same answer and leave the same program whatever is recorded. The record only grows. Each entry says something true: is_feasible and is_basic_solution end with a verdict that agrees with the returned boolean and give reasons that hold; to_canonical_form records the basis, the columns and costs chosen, the inverse and the vector y; simplex records numbered iterations, each with a program that has the same feasible points and values as the given one and is in canonical form for the current basis, where consecutive bases differ in one column, and ends with the returned solution, basis and certificate or with unboundedness. steps_string is the texts in order. Nothing is recorded when show_steps is false.", "quantifier": "every reachable program, every earlier record, point, basis, number of iterations, and every way numpy prints an array", "why_tests_cant": "the record depends on the whole run of an algorithm whose number of iterations is unbounded; a test compares a few stored texts", "anchors": ["pytimize/programs/_linear.py: LinearProgram.is_feasible, is_basic_solution, to_canonical_form, to_sef, simplex, two_phase_simplex, solve, verify_unboundedness, value_of, clear_steps, steps, steps_string", "pytimize/parsers/_description.py: render_descriptor"]}
{"id": "C65", "title": "Equality, constructor and printed form of an undirected graph", "statement": "g1 == g2 holds exactly when both graphs have the same vertices, edges, weights and adjacencies; it is an equivalence; equal graphs answer every later sequence of calls and every query alike and print alike. The constructor builds exactly the graph its dictionaries describe (edges in either orientation, last weight given, 0 otherwise) and raises ValueError exactly when they name an edge between equal or empty names. Passing a graph's own dictionaries to the constructor gives an equal graph. The printed form tells the vertices and the adjacencies.", "quantifier": "every pair of reachable graphs (any constructor arguments, any history of calls), every later history, every enumeration order of sets, every triple of dictionaries", "why_tests_cant": "equality must be a congruence for all later histories and independent of insertion order; a test compares a few graphs right after construction", "anchors": ["pytimize/graphs/_undirected.py: UndirectedGraph.__init__, __eq__, __repr__, graph, edges, vertices"]}
{"id": "C66", "title": "Spanning trees and partitions of an undirected graph", "statement": "has_spanning_tree answers true exactly when some of the edges of the graph join all its vertices without a cycle; minimum_spanning_tree returns such a graph of least weight; partition returns the connected components; formulate_shortest_path returns a linear program for the path.", "quantifier": "every reachable graph, every pair of vertices", "why_tests_cant": "existence of a spanning tree ranges over all subsets of the edges of all graphs", "anchors": ["pytimize/graphs/_undirected.py: UndirectedGraph.has_spanning_tree, minimum_spanning_tree, partition, formulate_shortest_path"]}
{"id": "C67", "title": "The auxiliary program measures infeasibility", "statement": "For a program in SEF the auxiliary program has one extra variable per constraint; its feasible points are exactly a nonnegative x together with the amounts by which x misses each equation in the direction of its right-hand side, and its objective value is the total amount missed. It always has an optimum, the optimum is at least 0, and it is 0 exactly when the program is feasible; a point of value 0 gives a feasible point of the program. Off SEF the call raises ArithmeticError.", "quantifier": "every reachable program in SEF, every point", "why_tests_cant": "the equivalence of optimum 0 and feasibility ranges over all points of all programs; a test sees single programs", "anchors": ["pytimize/programs/_linear.py: LinearProgram.auxiliary, two_phase_simplex"]}
{"id": "C68", "title": "One simplex iteration", "statement": "simplex_iteration from a feasible basis either returns an optimal solution of the program with its basis, or no basis and the program is unbounded, or a feasible basis that differs from the given one by one exchange, follows Bland's rule for the entering and the leaving variable and does not decrease the objective value. The returned program is the canonical form for the given basis and has the same feasible points with the same values. Off SEF the call raises ArithmeticError and with something that is no basis ValueError, leaving the program unchanged.", "quantifier": "every reachable program in SEF, every basis, every feasible point", "why_tests_cant": "optimality, unboundedness and preservation of the feasible set range over all points of all programs", "anchors": ["pytimize/programs/_linear.py: LinearProgram.simplex_iteration"]}
{"id": "C69", "title": "Equality of linear programs", "statement": "p == q is True exactly when p and q have the same constraint matrix, right-hand side, objective, constant, direction, relations and sign restrictions; in particular p == p.", "quantifier": "every pair of reachable programs, every release of numpy", "why_tests_cant": "whether a comparison answers at all and answers rightly ranges over all pairs of programs of all sizes; the tests of the repository compare fields one by one instead", "anchors": ["pytimize/programs/_linear.py: LinearProgram.__eq__"]}
{"id": "C70", "title": "is_solution_optimal decides optimality", "statement": "is_solution_optimal(x) returns True exactly when x is an optimal solution of the program.", "quantifier": "every reachable program, every point of the right length", "why_tests_cant": "optimality compares a point with all feasible points", "anchors": ["pytimize/programs/_linear.py: LinearProgram.is_solution_optimal"]}
{"id": "C71", "title": "Integer programs as objects", "statement": "The methods an integer program inherits treat it as an integer program: results of methods that do not work in place carry the integrality requirement, in-place conversions keep the set of integer solutions, is_feasible accepts exactly the admissible points, solve returns a best admissible point, and the printed form shows the program and which variables are integral.", "quantifier": "every reachable integer program, every inherited method, every point", "why_tests_cant": "the requirement is about all admissible points of all programs and all methods", "anchors": ["pytimize/programs/_integer.py: IntegerProgram, cutting_plane, __repr__", "pytimize/programs/_linear.py: LinearProgram.copy, to_sef, dual, add_constraint, is_feasible, solve"]}
{"id": "C72", "title": "Formulations and the programs behind them", "statement": "A formulation can be used like the program it describes: whatever methods of the program are called through it, the program read from it is the described one (changed by the methods that work in place), its solvers answer for that program, later sign constraints only add to it, the objective and other formulations made from it are not affected, and a formulation made with formulations.integer has integral variables.", "quantifier": "every formulation, every history of its own calls and of calls of the program's methods through it", "why_tests_cant": "the damage needs particular interleavings of in-place methods, solvers and sign constraints; tests use a formulation once", "anchors": ["pytimize/formulations/linear/_abstract.py: AbstractLinearProgram.__getattr__, program, where, whereAllPositive, whereAllNegative, extend", "pytimize/formulations/linear/_objective.py: ObjectiveFunction.subject_to", "pytimize/formulations/linear/_utilities.py: pad_right", "pytimize/formulations/integer/_objective.py: minimize, maximize"]}
{"id": "C73", "title": "Network programs of any size", "statement": "For transportation, assignment and flow problems (up to the signs of the rows every column of the constraint matrix has at most one 1 and at most one -1) with integer right hand sides, solve returns an optimum made of integers, or None when there is none; the integer version of the program, whatever its objective, signs and integral variables, returns the same optimum.", "quantifier": "every network program with any number of constraints and variables, minimisation and maximisation, mixed relations, free and negative variables, rational costs", "why_tests_cant": "integrality of the vertices is a statement about the determinants of all submatrices of matrices of all sizes", "anchors": ["pytimize/programs/_linear.py: LinearProgram.solve, two_phase_simplex, simplex, to_sef", "pytimize/programs/_integer.py: IntegerProgram.branch_and_bound, relax"]}
{"id": "C74", "title": "Values and tests in double precision", "statement": "In IEEE double arithmetic, with the products added up in whatever order numpy chooses, evaluate, is_feasible and the three verify_ methods give the exact answers for whole numbers of moderate size; for other numbers the value is off by at most an explicit error bound, an accepted point satisfies every constraint up to that bound (for equations plus twice the tolerance of the comparison) and a point with that much room is accepted. Beyond 2^53 the answer of is_feasible may depend on the order of the additions.", "quantifier": "every program and point, every order, grouping and fusing of the additions, every choice in case of ties", "why_tests_cant": "the order of the additions is chosen by the numerical library and depends on sizes, alignment and machine; a test sees one order", "anchors": ["pytimize/programs/_linear.py: LinearProgram.evaluate, is_feasible, verify_infeasibility, verify_unboundedness, verify_optimality", "pytimize/utilities/_comparator.py: is_close_compare"]}
{"id": "C75", "title": "Starting points with whole numbers", "statement": "steepest_descent and newton_method give the same answer for a starting point given as an array of integers as for the same numbers given as floats. When this fails the call raises TypeError, and the caller's array is left at the last whole-number point reached.", "quantifier": "every function, gradient, hessian, start, tolerance, reduction parameters and number of rounds", "why_tests_cant": "a test sees one start; whether the dtype of the step follows the dtype of the start depends on every operation in between", "anchors": ["pytimize/programs/_unconstrained.py: steepest_descent, newton_method"]}
{"id": "C76", "title": "Parsing several linear expressions", "statement": "LinearParser.parse_multiple treats every expression of the list as parse does: it returns the list of their coefficient rows, or raises what parse raises on the first expression that parse refuses.", "quantifier": "every list of strings, every size", "why_tests_cant": "the list has any length, and the exception must be that of the first bad expression whatever stands after it", "anchors": ["pytimize/parsers/_linear.py:LinearParser.parse_multiple", "pytimize/parsers/_linear.py:LinearParser.parse"]}
{"id": "C77", "title": "Comparisons of floating point numbers", "statement": "On Python floats, that is with every operation rounded and with overflow, infinities and nan: a strict comparison that answers true is right and a weak one that is right answers true; >= and < are complementary, and so are <= and >; >= is monotone; every number is exactly one of close to zero, positive and negative; values further than about 1e-8 + 1e-5 |t| from a nonzero t are told apart from it; is_integer answers true exactly for numbers closer than 1e-10 to an integer.", "quantifier": "all pairs of doubles, infinities and nan, all operators, all arrays", "why_tests_cant": "there are 2^128 pairs of doubles, and a wrong answer hides in one rounding, one overflow or one nan", "anchors": ["pytimize/utilities/_comparator.py:Comparator.is_close_to_zero", "pytimize/utilities/_comparator.py:Comparator.is_close_compare", "pytimize/utilities/_comparator.py:Comparator.is_integer", "pytimize/utilities/_comparator.py:Comparator.is_negative", "pytimize/utilities/_comparator.py:Comparator.is_positive"]}
{"id": "C78", "title": "Tests and certificates on floating point numbers with overflow, infinities and nan", "statement": "On Python floats with overflow, infinities and nan, for every order in which numpy adds up: as long as the sums of absolute values stay below 2^1000 nothing overflows, evaluate, is_feasible and the verify_ methods answer as they do without overflow (C74), and whole numbers are answered exactly. In SEF a point accepted by is_feasible, and both arguments accepted by verify_unboundedness, have no infinite or nan entry. A certificate of infeasibility with infinite entries is only accepted for programs that are infeasible. No point that is nan, infinite or whose products overflow is accepted unless it is feasible.", "quantifier": "all programs reachable through the API, all points and certificates of floats including infinities and nan, all orders of additions with or without fused operations", "why_tests_cant": "a wrong answer needs one overflow or one nan in one of astronomically many sums, and depends on the order of additions of the linear algebra library", "anchors": ["pytimize/programs/_linear.py:LinearProgram.evaluate", "pytimize/programs/_linear.py:LinearProgram.is_feasible", "pytimize/programs/_linear.py:LinearProgram.verify_infeasibility", "pytimize/programs/_linear.py:LinearProgram.verify_unboundedness", "pytimize/programs/_linear.py:LinearProgram.verify_optimality"]}
{"id": "C79", "title": "Removal of dependent equations", "statement": "For every system A x = b the row remover returns some of the given rows, unchanged and in order. The solutions of what it returns are exactly the solutions of A x = b. No row that follows from the others is left. Applying it to its own result changes nothing, and different numbers of rows in A and b are a ValueError.", "quantifier": "all matrices and right hand sides", "why_tests_cant": "which rows go depends on all pairs of rows and on rows zeroed earlier in the same loops", "anchors": ["pytimize/programs/_linear.py:LinearProgram.__remove_dependent_rows"]}
{"id": "C80", "title": "A modelling script from the objective to the answer", "statement": "For every script maximize(objective).subject_to(rows).where(signs).solve() (or minimize), the compiled program has exactly the feasible points and the objective values of the problem as written, read with ordinary arithmetic. When solve returns a point, it satisfies every row and sign as written and no such point has a better objective. When it returns None there is no such point or the objective has no bound.", "quantifier": "all objectives, all numbers and orders of rows, all expressions on both sides, all sign constraints", "why_tests_cant": "the objective and the rows are arbitrary expressions that share mutable objects, and the answer has to be compared with all points", "anchors": ["pytimize/formulations/linear/_objective.py:maximize", "pytimize/formulations/linear/_objective.py:minimize", "pytimize/formulations/linear/_objective.py:ObjectiveFunction.subject_to", "pytimize/formulations/linear/_abstract.py:AbstractLinearProgram.where", "pytimize/programs/_linear.py:LinearProgram.solve"]}
{"id": "C81", "title": "The simplex method when every numpy result carries a rounding error", "statement": "Suppose that in the last iteration every result of numpy.linalg.inv and of a matrix product is within e of the exact one, with rows times e at most 1/4; the iterations before may have any errors. A point that simplex reports satisfies every equation up to 4 w e (1 + |x|), has no entry below -1e-10, and no feasible point is better by more than (1e-10 + w e) times its size plus 4 w e (1 + |x|), where w is one more than the sum of the absolute values of all numbers of the program. The reported basis consists of independent columns and the point is within 4 e (1 + |x|) of its exact basic solution. For whole numbers and small e the reported basis is exactly optimal, and the answer that the program is unbounded is right. The direction reported with that answer is one.", "quantifier": "all programs in standard equality form, all bases, all errors up to the bound, all paths of the method", "why_tests_cant": "the errors depend on the linear algebra library and the processor; a test sees one of the possible results, and cannot compare with all feasible points", "anchors": ["pytimize/programs/_linear.py:LinearProgram.simplex", "pytimize/programs/_linear.py:LinearProgram.simplex_iteration", "pytimize/programs/_linear.py:LinearProgram.is_basis", "pytimize/programs/_linear.py:LinearProgram.to_canonical_form", "pytimize/programs/_linear.py:LinearProgram.compute_basic_solution"]}
{"id": "C82", "title": "two_phase_simplex and solve when every numpy result carries a rounding error", "statement": "Take a program with whole numbers whose square subdeterminants (right-hand side included) are at most K <= 10^9, and suppose every result of numpy.linalg.inv, of a matrix product, of evaluate and of a subtraction is within e of the exact one, with 8 e (w + 2 rows) (1 + rows K) < 1e-10, where w is one more than the sum of the absolute values of all numbers of the program. Then the verdict of two_phase_simplex is exactly right: a point is returned only if there is an optimum, one vector only if there is no feasible point, two vectors only if the value has no bound. The point is within 8 e (1 + rows K) of an exact optimum, and the certificate is within rows K w e of an exact dual proof of that (rows K (w + 2 rows) e of an exact proof of infeasibility). A point that solve returns for a program in any form is within 16 e (1 + rows K) + e of an exact optimum of that program, and solve returns None only if the program is infeasible or unbounded.", "quantifier": "all programs with whole numbers, in any form for solve; all bounds e and K that satisfy the inequality; all errors up to the bound; all paths of the method", "why_tests_cant": "the errors depend on the linear algebra library and the processor; a test sees one of the possible results, cannot compare with all feasible points, and cannot tell a wrong verdict near the tolerances from a right one without the exact answer", "anchors": ["pytimize/programs/_linear.py:LinearProgram.two_phase_simplex", "pytimize/programs/_linear.py:LinearProgram.solve", "pytimize/programs/_linear.py:LinearProgram.simplex", "pytimize/programs/_linear.py:LinearProgram.auxiliary", "pytimize/programs/_linear.py:LinearProgram.to_sef", "pytimize/programs/_linear.py:LinearProgram.evaluate", "pytimize/programs/_linear.py:LinearProgram.is_basis"]}
{"id": "C83", "title": "simplex, two_phase_simplex and solve end and behave as with exact numbers when every numpy result carries a rounding error", "statement": "Take a program with whole numbers whose square subdeterminants (right-hand side included) are at most K <= 300, and suppose every result of numpy.linalg.det, numpy.linalg.inv, of a matrix product, of a division in the ratio test, of evaluate and of a subtraction is within e of the exact one, with 16 e (w + 2 rows) (1 + rows K) K < 1e-10, where w is one more than the sum of the absolute values of all numbers of the program. Then simplex from a feasible basis ends after at most 2^columns iterations, raises nothing, and has the verdict and the basis of the exact method and a point within 8 e (1 + rows K) of the exact one. two_phase_simplex always ends, after at most 2^(columns + rows) + 2^columns iterations; it returns or raises as the exact method does, with the same verdict and basis and a point that close; with independent rows it always returns. solve always ends too, with the answer of the exact method: None for None and otherwise a point within 16 e (1 + rows K) + e, unless the standard form has exactly twice as many columns as rows.", "quantifier": "all programs with whole numbers, in any form for solve; all bounds e and K that satisfy the inequality; all errors up to the bound in every operation and every iteration; all starting bases", "why_tests_cant": "termination is about unboundedly many iterations, each with errors that depend on the linear algebra library and the processor; a cycle caused by one unlucky rounding error cannot be told from a long run, and a test sees one of the possible runs", "anchors": ["pytimize/programs/_linear.py:LinearProgram.simplex", "pytimize/programs/_linear.py:LinearProgram.simplex_iteration", "pytimize/programs/_linear.py:LinearProgram.two_phase_simplex", "pytimize/programs/_linear.py:LinearProgram.solve", "pytimize/programs/_linear.py:LinearProgram.is_basis", "pytimize/programs/_linear.py:LinearProgram.auxiliary", "pytimize/math/_comparator.py:Comparator"]}
{"id": "C84", "title": "Branch and bound ends and finds the best integral point when every numpy result carries a rounding error", "statement": "Take an integer program that maximises, with nonnegative variables, \"<=\" and \">=\" constraints, more constraints than variables and whole numbers. Let the integral variables be at most U, let the square subdeterminants be at most K and the right-hand sides and bounds add up to T, with K T <= 300. Suppose every result of numpy.linalg.det, numpy.linalg.inv, of a matrix product, of a division, of evaluate and of a subtraction is within e of the exact one, where e is small compared with these numbers. Then branch_and_bound ends and raises nothing. If it returns a point, the point is within 0.5e-10 of an integral feasible point, and no other integral feasible point has a larger value than that one, exactly. If it returns None, no integral point is feasible or the relaxation is unbounded.", "quantifier": "all integer programs of this kind; all errors up to the bound in every operation, every iteration and every branch; all trees of relaxations", "why_tests_cant": "the number of branches is unbounded and each solves a new program with new rounding errors; one error near an integer would change the tree, and a test sees one tree and one set of errors", "anchors": ["pytimize/programs/_integer.py:IntegerProgram.branch_and_bound", "pytimize/programs/_integer.py:IntegerProgram.__branch", "pytimize/programs/_linear.py:LinearProgram.solve", "pytimize/programs/_linear.py:LinearProgram.evaluate", "pytimize/math/_comparator.py:Comparator.is_integer"]}
{"id": "C85", "title": "A modelling script is solved reliably when every numpy result carries a rounding error", "statement": "Take a modelling script maximize(...) or minimize(...).subject_to(...).where(...).solve() as in C80, with whole numbers, in which no equation follows from the others. Let the square subdeterminants of the coefficients and constants as written be at most K <= 300. Suppose every result of numpy.linalg.det, numpy.linalg.inv, of a matrix product and of a division in solve is within e of the exact one, where e is small compared with the numbers written. Then the script ends and raises nothing. If it returns a point, every coordinate is within 16 e (1 + m K) + e of that of an optimal point of the problem as written, m being the number of rows. If it returns None, no point satisfies everything that is written, or there is no bound on the objective.", "quantifier": "all scripts of this kind, with equations, inequalities in both directions, numbers and variables on both sides, variables with and without signs; all errors up to the bound in every operation", "why_tests_cant": "the claim compares the answer with all points that satisfy what is written, for all scripts and all combinations of errors; a test sees one script and one set of errors", "anchors": ["pytimize/formulations/linear/_objective.py:LinearObjective.subject_to", "pytimize/formulations/linear/_abstract.py:AbstractFormulation.where", "pytimize/formulations/linear/_abstract.py:AbstractFormulation.solve", "pytimize/programs/_linear.py:LinearProgram.solve"]}
{"id": "C86", "title": "Maximum flows with float capacities", "statement": "Let the capacities be doubles and let every addition and subtraction of preflow_push and ford_fulkerson be rounded. On a network as in C26 preflow_push returns, after finitely many iterations, a flow that respects the capacities and is conserved and maximum, and reports its value. ford_fulkerson does so on every network as in C24.", "quantifier": "all digraphs without antiparallel arcs, all nonnegative double capacities, all orders in which the sets of arcs are iterated", "why_tests_cant": "the claim is about all networks, all capacities and all iteration orders of sets; the first failure needs decimals whose sums round up and a particular order of the nodes", "anchors": ["pytimize/graphs/_directed.py:DirectedGraph.preflow_push", "pytimize/graphs/_directed.py:DirectedGraph.ford_fulkerson", "pytimize/graphs/_directed.py:DirectedGraph._compute_residual"]}
