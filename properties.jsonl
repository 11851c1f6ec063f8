{"id": "C01", "title": "Interval.intersect is set intersection", "statement": "For any two Interval objects I, J and any number x, I.intersect(J).contains(x) holds exactly when I.contains(x) and J.contains(x), whatever the open/closed flags and including disjoint, touching and degenerate intervals; intersect never raises.", "quantifier": "all pairs of constructible intervals (endpoints rational, all four flag combinations each) and all rational x", "why_tests_cant": "infinitely many endpoint orderings and flag combinations; tests check a handful of literals", "anchors": ["blueprint/src/python/functions.py: Interval.__init__", "blueprint/src/python/functions.py: Interval.contains", "blueprint/src/python/functions.py: Interval.intersect"]}
{"id": "C02", "title": "Interval emptiness, equality and construction agree with the point set", "statement": "Constructing Interval(x0,x1) fails exactly when x0 > x1. is_empty() is true exactly when no number is contained; two intervals compare equal exactly when they contain the same numbers; a non-empty interval contains its midpoint.", "quantifier": "all pairs of constructible intervals", "why_tests_cant": "equality is claimed of point sets, which are infinite", "anchors": ["blueprint/src/python/functions.py: Interval.__init__", "blueprint/src/python/functions.py: Interval.__eq__", "blueprint/src/python/functions.py: Interval.is_empty", "blueprint/src/python/functions.py: Interval.midpoint"]}
{"id": "C03", "title": "Affine.min_with / max_with return the exact pointwise optimum", "statement": "For an affine piece, a list of competing affine pieces and a domain, the list of pieces returned by min_with (max_with) covers exactly the points of the domain covered by some input, every returned piece covering x evaluates at x to the least (greatest) value of the inputs covering x. The property is claimed by the docstring for all inputs; it is violated when pieces share a label and partly overlap, so the guard under which it holds is part of the statement.", "quantifier": "all affine pieces, all lists of pieces, all domains, all points", "why_tests_cant": "the breakpoints come from arbitrary rational intersections; correctness is a statement about every point of a continuum", "anchors": ["blueprint/src/python/functions.py: Affine.compare_with", "blueprint/src/python/functions.py: Affine.min_with", "blueprint/src/python/functions.py: Affine.max_with"]}
{"id": "C04", "title": "compute_best_beta_bounds is the exact lower envelope of the known beta bounds", "statement": "The hypotheses returned have bounds whose value at every alpha in the covered set is the minimum over all beta bounds in the hypothesis set whose domain contains alpha, and each depends on a bound of the input attaining that value.", "quantifier": "all hypothesis sets of beta bounds (any number, any rational slopes and domains) and all alpha", "why_tests_cant": "the fold of envelopes grows with the number of bounds; no finite sample settles exactness everywhere", "anchors": ["blueprint/src/python/bound_beta.py: compute_best_beta_bounds", "blueprint/src/python/functions.py: Affine.min_with"]}
{"id": "C05", "title": "Polynomial arithmetic is pointwise and canonical", "statement": "p+q, p-q, p*q evaluate at every x to the sum, difference and product of the values; the result never has a trailing zero coefficient; the constructor rejects exactly the non-canonical coefficient tuples.", "quantifier": "all polynomials of every degree with rational coefficients and all x", "why_tests_cant": "unbounded degree", "anchors": ["blueprint/src/python/polynomial.py: Polynomial.__init__", "blueprint/src/python/polynomial.py: Polynomial.add", "blueprint/src/python/polynomial.py: Polynomial.subtract", "blueprint/src/python/polynomial.py: Polynomial.multiply", "blueprint/src/python/polynomial.py: Polynomial._trim_trailing_zeroes"]}
{"id": "C06", "title": "Polynomial equality and degree are semantic", "statement": "Two Polynomial objects compare equal exactly when they define the same function; degree(p*q)=degree(p)+degree(q) with degree(0) = -inf, degree(p+q) <= max of degrees.", "quantifier": "all pairs of canonical polynomials", "why_tests_cant": "extensional equality quantifies over all evaluation points", "anchors": ["blueprint/src/python/polynomial.py: Polynomial.__eq__", "blueprint/src/python/polynomial.py: Polynomial.degree", "blueprint/src/python/polynomial.py: Polynomial.multiply"]}
{"id": "C07", "title": "RationalFunction arithmetic is pointwise", "statement": "Sum, difference, product and quotient of rational functions (and of a rational function and a number) evaluate, wherever all denominators are non-zero, to the sum, difference, product and quotient of the values.", "quantifier": "all rational functions, all numbers, all non-pole points", "why_tests_cant": "quantifies over all degrees and all points", "anchors": ["blueprint/src/python/functions.py: RationalFunction.add", "blueprint/src/python/functions.py: RationalFunction.subtract", "blueprint/src/python/functions.py: RationalFunction.mul", "blueprint/src/python/functions.py: RationalFunction.div", "blueprint/src/python/functions.py: RationalFunction.at"]}
{"id": "C08", "title": "RationalFunction.max / min tile the domain and are pointwise optimal", "statement": "The (function, interval) pieces returned tile the requested domain without overlap, and on each piece the returned function is >= (<=) every input function defined there, where undefined inputs count as the default.", "quantifier": "all lists of rational functions with interval domains, all domains, all points", "why_tests_cant": "a claim about every point of every interval between critical points", "anchors": ["blueprint/src/python/functions.py: RationalFunction.max", "blueprint/src/python/functions.py: RationalFunction.min", "blueprint/src/python/functions.py: RationalFunction._compute_optimal"]}
{"id": "C09", "title": "Polytope.intersect is set intersection", "statement": "A point is in P.intersect(Q) exactly when it is in P and in Q, equality rows included, and the result is independent of which operand carries the equalities.", "quantifier": "all polytopes of every dimension with any rows and equality sets, all points", "why_tests_cant": "unbounded dimension and row counts", "anchors": ["blueprint/src/python/polytope.py: Polytope.intersect", "blueprint/src/python/polytope.py: Polytope.contains", "blueprint/src/python/polytope.py: Polytope._matrix_as_list"]}
{"id": "C10", "title": "Polytope.rect, scale and scale_all describe the box and the scaled set", "statement": "rect(b1..bn) contains x iff each coordinate lies between its limits; after scale(i,k) (scale_all(ks)) the polytope contains x iff the original contains x with coordinate i divided by k (all coordinates divided), for positive and negative scale factors; zero factors are handled as documented.", "quantifier": "all boxes, polytopes, dimensions, factors and points", "why_tests_cant": "unbounded dimension", "anchors": ["blueprint/src/python/polytope.py: Polytope.rect", "blueprint/src/python/polytope.py: Polytope.scale", "blueprint/src/python/polytope.py: Polytope.scale_all"]}
{"id": "C11", "title": "Polytope.substitute and lift are fibre and cylinder", "statement": "substitute({i:v,...}) contains y exactly when the original contains the point obtained by inserting v at the fixed coordinates; lift(dims) contains x exactly when the original contains the selected coordinates and the bounded new coordinates lie in their limits.", "quantifier": "all polytopes, all substitution maps and lifting patterns, all points", "why_tests_cant": "index arithmetic over arbitrary dimensions", "anchors": ["blueprint/src/python/polytope.py: Polytope.substitute", "blueprint/src/python/polytope.py: Polytope.lift"]}
{"id": "C12", "title": "Polytope.is_empty decides feasibility with and without boundary", "statement": "is_empty(True) is true exactly when no point satisfies the constraints; is_empty(False) is true exactly when no point satisfies all constraints strictly (in particular whenever an equality row is present).", "quantifier": "all polytopes in every dimension, given a correct linear-programming backend", "why_tests_cant": "an LP of arbitrary size; the claim is a non-existence statement over all points", "anchors": ["blueprint/src/python/polytope.py: Polytope.is_empty"]}
{"id": "C13", "title": "Polytope.is_subset_of decides containment", "statement": "P.is_subset_of(Q) returns True exactly when every point of P is a point of Q, given a correct LP backend.", "quantifier": "all pairs of polytopes", "why_tests_cant": "containment quantifies over all points of P", "anchors": ["blueprint/src/python/polytope.py: Polytope.is_subset_of"]}
{"id": "C14", "title": "Polytope.is_covered_by decides coverage by a union", "statement": "P.is_covered_by([Q1..Qm]) True implies every interior point of P lies in some Qi; False implies some point of P is outside the union; stated for the domain on which it holds, and refuted for lower-dimensional P.", "quantifier": "all full-dimensional polytopes P and all finite lists of polytopes", "why_tests_cant": "recursion over arbitrarily many covering polytopes and constraints", "anchors": ["blueprint/src/python/polytope.py: Polytope.is_covered_by"]}
{"id": "C15", "title": "Polytope.set_minus partitions the difference", "statement": "The polytopes returned by A.set_minus(B) are contained in A, have interiors disjoint from B and from each other, and together with B cover A.", "quantifier": "all polytopes A and inequality-only B", "why_tests_cant": "unbounded number of rows", "anchors": ["blueprint/src/python/polytope.py: Polytope.set_minus"]}
{"id": "C16", "title": "Polytope.try_union returns the union or None", "statement": "If try_union(Ps) returns a polytope U, then for bounded full-dimensional input U is exactly the union of the Ps (every point); the precondition is necessary.", "quantifier": "all finite lists of polytopes", "why_tests_cant": "exponentially many facet combinations; a statement about all points", "anchors": ["blueprint/src/python/polytope.py: Polytope.try_union"]}
{"id": "C17", "title": "Region.contains has boolean semantics at every nesting", "statement": "contains on a Region built by intersect, union, disjoint_union, complement, from_polytope equals the boolean combination of the polytope memberships.", "quantifier": "all region trees of any depth and all points", "why_tests_cant": "unbounded tree depth", "anchors": ["blueprint/src/python/region.py: Region.contains", "blueprint/src/python/region.py: Region.intersect", "blueprint/src/python/region.py: Region.union", "blueprint/src/python/region.py: Region.complement"]}
{"id": "C18", "title": "Region.substitute, scale_all and lift commute with membership", "statement": "Applied to a region tree they give a tree whose membership is the fibre, scaled set or cylinder of the original, node kind by node kind.", "quantifier": "all region trees, all maps, all points", "why_tests_cant": "unbounded trees and dimensions", "anchors": ["blueprint/src/python/region.py: Region.substitute", "blueprint/src/python/region.py: Region.scale_all", "blueprint/src/python/region.py: Region.lift"]}
{"id": "C19", "title": "Region.project is the coordinate projection of unions", "statement": "For unions, disjoint unions and polytopes, project(dims) contains y iff some point of the region has those coordinates; for intersections the result can be too large.", "quantifier": "all region trees with a correct V-representation backend", "why_tests_cant": "existential over all fibres", "anchors": ["blueprint/src/python/region.py: Region.project", "blueprint/src/python/polytope.py: Polytope.project"]}
{"id": "C20", "title": "from_union_of_halfplanes equals box intersected with the union of halfspaces", "statement": "Region.from_union_of_halfplanes(halfplanes, box) contains x iff x satisfies the box and at least one halfspace, and the pieces overlap only on boundaries.", "quantifier": "all lists of halfspaces, all boxes, all points", "why_tests_cant": "number of halfspaces unbounded", "anchors": ["blueprint/src/python/region.py: Region.from_union_of_halfplanes"]}
{"id": "C21", "title": "as_disjoint_union preserves the region up to boundaries", "statement": "as_disjoint_union of an intersection of (disjoint) unions contains exactly the interior points of the region, never adds points, and its pieces are pairwise interior-disjoint when the inputs' pieces are; independent of simplification frequency.", "quantifier": "all intersections of unions of polytopes", "why_tests_cant": "combinatorial product of unbounded size with pruning and merging", "anchors": ["blueprint/src/python/region.py: Region.as_disjoint_union", "blueprint/src/python/region.py: Region._as_disjoint_union_poly"]}
{"id": "C22", "title": "simplify_union_of_polys terminates, preserves the union and reaches a fixpoint", "statement": "The list returned denotes the same union as the input, is not longer, and no two of its members can be merged further; the loop always terminates.", "quantifier": "all lists of polytopes, all matchability groups, all iteration orders of the random search", "why_tests_cant": "arbitrary merge schedules", "anchors": ["blueprint/src/python/helpers/region_helper.py: Region_Helper.simplify_union_of_polys"]}
{"id": "C23", "title": "Hypothesis_Set behaves as a growing set", "statement": "After any sequence of add_hypothesis/add_hypotheses the set contains exactly the added hypotheses, iteration enumerates each once, membership is monotone, and adding a list, a set or another Hypothesis_Set are equivalent.", "quantifier": "all histories of operations", "why_tests_cant": "all histories", "anchors": ["blueprint/src/python/hypotheses.py: Hypothesis_Set.add_hypothesis", "blueprint/src/python/hypotheses.py: Hypothesis_Set.add_hypotheses", "blueprint/src/python/hypotheses.py: Hypothesis_Set.__iter__"]}
{"id": "C24", "title": "Cached data is never stale for the set it belongs to", "statement": "A value cached in Hypothesis_Set.data (convex hull) is used only while data_valid, every addition invalidates it, so after any history a valid cached hull equals the hull of the present contents; violated by copies, which share the cache dictionary, and by two clients sharing one key.", "quantifier": "all histories of adds, hull computations and copies", "why_tests_cant": "depends on interleaving of operations", "anchors": ["blueprint/src/python/hypotheses.py: Hypothesis_Set.__copy__", "blueprint/src/python/hypotheses.py: Hypothesis_Set.add_hypothesis", "blueprint/src/python/exponent_pair.py: compute_convex_hull", "blueprint/src/python/bound_mu.py: compute_convex_hull"]}
{"id": "C25", "title": "list_hypotheses and find_hypothesis select exactly the matching hypotheses", "statement": "list_hypotheses(type, year) returns exactly the members whose type matches and whose year qualifies; find_hypothesis(keys) returns a member satisfying every filter, and reports absence only when none does.", "quantifier": "all hypothesis sets and all filter combinations", "why_tests_cant": "combinations of filters over arbitrary sets", "anchors": ["blueprint/src/python/hypotheses.py: Hypothesis_Set.list_hypotheses", "blueprint/src/python/hypotheses.py: Hypothesis_Set.find_hypothesis", "blueprint/src/python/hypotheses.py: Hypothesis.is_match"]}
{"id": "C26", "title": "recursive_dependencies is the transitive closure", "statement": "h.recursive_dependencies() contains exactly the hypotheses reachable from h through one or more dependency edges (not h itself), each once, for every acyclic dependency graph within the recursion limit, with sharing, in any iteration order; on a cyclic graph it raises RecursionError.", "quantifier": "all finite acyclic dependency graphs", "why_tests_cant": "unbounded graphs; sharing makes paths exponential", "anchors": ["blueprint/src/python/hypotheses.py: Hypothesis.add_recursive_dependencies", "blueprint/src/python/hypotheses.py: Hypothesis.recursive_dependencies"]}
{"id": "C27", "title": "proof_complexity and proof_date are monotone functions of the proof tree", "statement": "proof_complexity(h) = 1 + sum over dependencies, hence exceeds each dependency's and is at least the number of distinct recursive dependencies; proof_date is the latest year among h and all recursive dependencies, where an unknown date counts as -1, and equals h's own year when every derived hypothesis is dated by its dependencies.", "quantifier": "all finite dependency trees", "why_tests_cant": "unbounded trees", "anchors": ["blueprint/src/python/hypotheses.py: Hypothesis.proof_complexity", "blueprint/src/python/hypotheses.py: Hypothesis.proof_date", "blueprint/src/python/reference.py: Reference.max_year"]}
{"id": "C28", "title": "Reference.max_year is order independent", "statement": "max_year of a collection is -1 for the empty one, 'Unknown date' iff some member is unknown, otherwise the maximum; it does not depend on the order and max_year(xs+ys) is the join.", "quantifier": "all collections of references", "why_tests_cant": "all permutations and lengths", "anchors": ["blueprint/src/python/reference.py: Reference.max_year"]}
{"id": "C29", "title": "Bibliography parsing respects brace nesting", "statement": "_split_level splits a string at separators occurring at brace depth 0 only, loses no other character, and joining the pieces with the separator gives the string back when no piece is empty; _extract returns the contents of the outermost braces; reading a well-formed bibtex entry gives back its label, type, year, surnames and other fields, and loading a file makes every entry retrievable by its label.", "quantifier": "all strings", "why_tests_cant": "all strings", "anchors": ["blueprint/src/python/reference.py: Reference_Manager._split_level", "blueprint/src/python/reference.py: Reference_Manager._extract"]}
{"id": "C30", "title": "Exponent pair transforms preserve the exponent-pair triangle", "statement": "If 0<=k<=1/2<=l<=1 (and k+l<=1 where required) then the A, B, C, D images again satisfy the constraints; B is an involution; A contracts.", "quantifier": "all rational (k,l) in the triangle", "why_tests_cant": "continuum of inputs", "anchors": ["blueprint/src/python/literature.py: A_transform_function", "blueprint/src/python/literature.py: B_transform_function", "blueprint/src/python/literature.py: C_transform_function", "blueprint/src/python/literature.py: D_transform_function"]}
{"id": "C31", "title": "The van der Corput pairs have the classical closed form", "statement": "van_der_corput_pair(k) for every k>=2 obtains, by iterating A from B(0,1), the pair (1/(2^k-2), 1-(k-1)/(2^k-2)), with all intermediate pairs valid.", "quantifier": "all k >= 2", "why_tests_cant": "unbounded iteration count", "anchors": ["blueprint/src/python/derived.py: van_der_corput_pair"]}
{"id": "C32", "title": "compute_exp_pairs is sound and complete to the search depth", "statement": "Every pair returned is obtained from input pairs by input transforms, using at most search_depth rounds (the documented bound of search_depth applications is false: one round may apply several transforms in a row); it is true whenever the hypotheses are; without pruning every pair reachable within search_depth applications is returned; with pruning every such pair lies in the convex hull of the pairs returned, for the transforms of the literature.", "quantifier": "all hypothesis sets, transform sets, depths", "why_tests_cant": "unbounded breadth-first growth", "anchors": ["blueprint/src/python/exponent_pair.py: compute_exp_pairs"]}
{"id": "C33", "title": "in_triangle decides membership in counter-clockwise triangles", "statement": "For a counter-clockwise non-degenerate triangle abc, in_triangle(a,b,c,p) holds iff p is a convex combination of a,b,c; the orientation condition is necessary.", "quantifier": "all triangles and points", "why_tests_cant": "continuum of inputs", "anchors": ["blueprint/src/python/exponent_pair.py: in_triangle"]}
{"id": "C34", "title": "Exponent pairs and beta bounds are dual", "statement": "(k,l) yields the beta bound k+(l-k)alpha on [0,1/2]; beta_bounds_to_exponent_pairs returns only pairs (k,l) with beta(alpha) <= k+(l-k)alpha for all alpha in [0,1/2], provided the input bounds cover [0,1/2], lie between 0 and alpha there, are stated inside [0,1/2] and rise to the right end with slope at least 1/2 (without these provisos it returns pairs that are false), and it misses no pair that follows from the bounds. The pair-to-bound-to-pair round trip returns only the original pairs (and their B images) and for every alpha and every original pair one that is at least as good.", "quantifier": "all exponent pairs and all piecewise-linear beta bounds", "why_tests_cant": "continuum of alpha and arbitrary numbers of pieces", "anchors": ["blueprint/src/python/bound_beta.py: exponent_pairs_to_beta_bounds", "blueprint/src/python/exponent_pair.py: beta_bounds_to_exponent_pairs"]}
{"id": "C35", "title": "mu-bound rules are sound for every convex function with the functional equation", "statement": "For every function mu that is convex, satisfies mu(1-s)=mu(s)+s-1/2 and obeys the input bounds, every bound produced by apply_functional_equation, apply_mu_convexity, obtain_mu_bound_from_exponent_pair, get_bounds and best_mu_bound is satisfied by mu.", "quantifier": "all functions mu, all sets of bounds, all sigma", "why_tests_cant": "quantifies over all functions", "anchors": ["blueprint/src/python/bound_mu.py: apply_functional_equation", "blueprint/src/python/bound_mu.py: apply_mu_convexity", "blueprint/src/python/bound_mu.py: get_bounds", "blueprint/src/python/bound_mu.py: best_mu_bound"]}
{"id": "C36", "title": "best_mu_bound returns the best convexity consequence", "statement": "best_mu_bound(sigma) returns the least value at sigma of the lower convex hull of the closed set of bounds, never worse than the trivial bound.", "quantifier": "all hypothesis sets and sigma", "why_tests_cant": "minimum over all pairs of bounds", "anchors": ["blueprint/src/python/bound_mu.py: best_mu_bound", "blueprint/src/python/bound_mu.py: compute_convex_hull", "blueprint/src/python/bound_mu.py: trivial_mu_bound"]}
{"id": "C37", "title": "convert_bounds is the region rho <= max of bounds inside the box", "statement": "Large_Value_Estimate conversion convert_bounds(bounds) gives the region of (sigma,tau,rho) in the default box for which rho <= some bound.", "quantifier": "all lists of affine bounds and all points", "why_tests_cant": "unbounded list of bounds", "anchors": ["blueprint/src/python/large_values.py: convert_bounds"]}
{"id": "C38", "title": "Raising to a power is the LV scaling rule and composes", "statement": "raise_to_power_hypothesis(k) sends a region to the set of (sigma,tau,rho) with (sigma,tau/k,rho/k) in it; raising to k then m is raising to k*m; the tau limit is not re-imposed.", "quantifier": "all k>=1, all regions, all points", "why_tests_cant": "all k and all regions", "anchors": ["blueprint/src/python/large_values.py: raise_to_power_hypothesis", "blueprint/src/python/additive_energy.py: get_raise_to_power_hypothesis"]}
{"id": "C39", "title": "Zeta large value estimates derived from beta and mu bounds are sound", "statement": "For each input beta bound beta(alpha)<=b(alpha) on [a0,a1] the derived region excludes exactly the (sigma,tau,rho) with tau in the dual range and sigma above the bound; for mu bounds likewise; LV to ZLV restricts tau >= 2 only.", "quantifier": "all affine beta bounds, all mu bounds, all points", "why_tests_cant": "continuum of points", "anchors": ["blueprint/src/python/zeta_large_values.py: beta_to_zlv", "blueprint/src/python/zeta_large_values.py: mu_to_zlv", "blueprint/src/python/zeta_large_values.py: lv_to_zlv"]}
{"id": "C40", "title": "compute_sup_rho_on_tau equals the supremum of rho/tau", "statement": "For bounded polytopes with tau>0 the returned pieces give, for every sigma in the interval, the supremum of rho/tau over the fibre at sigma.", "quantifier": "all finite unions of bounded polytopes, all sigma", "why_tests_cant": "supremum over a continuum fibre", "anchors": ["blueprint/src/python/zero_density_estimate.py: compute_sup_rho_on_tau"]}
{"id": "C41", "title": "Zero-density aggregation returns the pointwise best estimate", "statement": "best_zero_density_estimate picks, on every subinterval between critical points, an input estimate that is minimal there, and simplify only merges adjacent pieces carrying the same bound, preserving the function.", "quantifier": "all finite sets of estimates, all sigma", "why_tests_cant": "continuum of sigma and arbitrary sets", "anchors": ["blueprint/src/python/zero_density_estimate.py: best_zero_density_estimate", "blueprint/src/python/zero_density_estimate.py: simplify"]}
{"id": "C42", "title": "ep_to_lver encodes the large value energy inequality of an exponent pair", "statement": "The region produced for (k,l) contains (sigma,tau,rho,rho*,s) iff the default constraints hold and the published max-form inequality holds.", "quantifier": "all exponent pairs and all points", "why_tests_cant": "continuum of points", "anchors": ["blueprint/src/python/additive_energy.py: ep_to_lver", "blueprint/src/python/additive_energy.py: default_constraints"]}
{"id": "C43", "title": "Energy/large-value conversions keep the right coordinates", "statement": "lv_to_lver, lver_to_lv, lver_to_energy and expand_lver select and insert the coordinates they document: (sigma,tau,rho) of the five.", "quantifier": "all regions and points", "why_tests_cant": "all regions", "anchors": ["blueprint/src/python/additive_energy.py: lv_to_lver", "blueprint/src/python/additive_energy.py: lver_to_lv", "blueprint/src/python/additive_energy.py: lver_to_energy", "blueprint/src/python/additive_energy.py: expand_lver"]}
{"id": "C44", "title": "compute_best_lver only intersects known estimates", "statement": "Every point of the region returned satisfies each used large value energy estimate, and every true large value energy tuple (any set satisfying all hypotheses and closed under the transforms) stays inside.", "quantifier": "all hypothesis sets and all sets of tuples", "why_tests_cant": "second-order quantification over the unknown true region", "anchors": ["blueprint/src/python/additive_energy.py: compute_best_lver"]}
{"id": "C45", "title": "Piecewise.min_with and simplify are pointwise", "statement": "Piecewise functions of two variables: min_with evaluates to the minimum, crop restricts the domain, simplify preserves all values.", "quantifier": "all finite piecewise affine functions on polytopes", "why_tests_cant": "continuum of points and arbitrary polytope partitions", "anchors": ["blueprint/src/python/functions.py: Piecewise.min_with", "blueprint/src/python/functions.py: Piecewise.crop", "blueprint/src/python/functions.py: Piecewise.simplify", "blueprint/src/python/functions.py: Affine2.min_with"]}
{"id": "C46", "title": "Linear expression formatting is faithful", "statement": "The string produced for c0+c1x1+... determines every coefficient: parsing it back under the documented grammar yields the same linear form; zero coefficients are omitted and signs are placed once.", "quantifier": "all rational coefficient vectors and variable lists", "why_tests_cant": "all vectors", "anchors": ["blueprint/src/python/helpers/str_helper.py: Str_Helper.format", "blueprint/src/python/polynomial.py: Polynomial.to_str"]}
{"id": "C47", "title": "Proof search for exponent pairs returns a valid proof", "statement": "construct_proof / find_best_proof return either None or a derived exponent-pair hypothesis for exactly the requested pair, which is a convex combination of its dependencies.", "quantifier": "all hypothesis sets and target pairs", "why_tests_cant": "all point configurations", "anchors": ["blueprint/src/python/exponent_pair.py: construct_proof", "blueprint/src/python/exponent_pair.py: find_best_proof", "blueprint/src/python/exponent_pair.py: derived_exp_pair"]}
{"id": "C48", "title": "Recorded dependencies suffice to re-derive every derived hypothesis", "statement": "Each hypothesis created by the library's derivation functions lists as dependencies hypotheses that already suffice for its claim (it would be derived from them alone).", "quantifier": "all histories of derivations", "why_tests_cant": "histories unbounded", "anchors": ["blueprint/src/python/hypotheses.py: Hypothesis.add_dependencies", "blueprint/src/python/exponent_pair.py: derived_exp_pair", "blueprint/src/python/bound_beta.py: derived_bound_beta"]}
{"id": "C49", "title": "Polytope vertices, projection, centroid and hyperplane test are geometric", "statement": "get_vertices spans the polytope; project keeps exactly the points that extend to a point of the polytope; get_centroid is a point of the polytope; intersects is true exactly when points of the polytope lie strictly on both sides of the hyperplane.", "quantifier": "all bounded polytopes, hyperplanes and coordinate choices", "why_tests_cant": "statements about every point of a polytope in any dimension", "anchors": ["blueprint/src/python/polytope.py: Polytope.get_vertices", "blueprint/src/python/polytope.py: Polytope.project", "blueprint/src/python/polytope.py: Polytope.get_centroid", "blueprint/src/python/polytope.py: Polytope.intersects"]}
{"id": "C50", "title": "The exponent pair conjecture is stored as a pair that can be an exponent pair", "statement": "The hypothesis exponent_pair_conjecture carries a pair in the triangle of admissible exponent pairs. It does not: the stored pair (0,0) is outside, so the hypothesis is false whatever beta is.", "quantifier": "all functions beta", "why_tests_cant": "falsity in every possible world is not observable by running the code", "anchors": ["blueprint/src/python/exponent_pair.py: exponent_pair_conjecture"]}
{"id": "C51", "title": "The piecewise mu bound is the lower convex hull on every requested range", "statement": "best_mu_bound_piecewise(I, H) returns affine pieces that cover the part of I inside [0,1) and whose value at each point is the least value that follows from the collected bounds by convexity, plus the trivial formulas outside. It returns for every range I: this last part is false, the call raises ValueError on every range containing [0,1] and on every range outside [0,1].", "quantifier": "all hypothesis sets, all intervals", "why_tests_cant": "all hull configurations and all ranges", "anchors": ["blueprint/src/python/bound_mu.py: best_mu_bound_piecewise", "blueprint/src/python/bound_mu.py: compute_convex_hull", "blueprint/src/python/bound_mu.py: get_bounds"]}
{"id": "C52", "title": "get_edges lists every edge of a polytope", "statement": "For a bounded polytope get_edges returns pairs of points of the polytope, and every edge (a segment that is a face of the set) is among them.", "quantifier": "all bounded polytopes in all dimensions", "why_tests_cant": "statement about all edges of all polytopes; faces are sets of points", "anchors": ["blueprint/src/python/polytope.py: Polytope.get_edges"]}
{"id": "C53", "title": "The large value region over a domain combines every estimate", "statement": "compute_large_value_region(H, domain, zeta) returns the part of the domain that no large value estimate of H, no transform of one, and with zeta=True no zeta large value estimate excludes; if the hypotheses are true, no large values over the domain lie elsewhere. Both hold up to boundaries. The recorded dependencies are members of that collection, but they do not suffice for the result: an estimate that cuts off whole pieces leaves no trace, so a conjecture can be used and not recorded (refuted).", "quantifier": "all sets of estimates with solid pieces, all domains, all orders of iteration", "why_tests_cant": "an intersection of arbitrarily many unions of polytopes, with duplicates detected by printed text", "anchors": ["blueprint/src/python/zero_density_estimate.py: compute_large_value_region"]}
{"id": "C54", "title": "Zero density estimates follow from the large value regions", "statement": "lv_zlv_to_zd(H, [a,b), tau0) returns zero density estimates that tile [a,b); at every sigma the bound is the larger of the largest rho/tau over the large value region for tau in [tau0, 2 tau0] and over the zeta large value region for tau in [2, tau0], and A(sigma) <= bound/(1-sigma) whenever the two regions contain the large values. The stored bound is meant to bound A(sigma) itself and the set H to be left alone: both are false (refuted).", "quantifier": "all hypothesis sets, ranges, tau0 and all possible large value behaviour", "why_tests_cant": "second-order quantification over the true large values; suprema over a continuum", "anchors": ["blueprint/src/python/zero_density_estimate.py: lv_zlv_to_zd", "blueprint/src/python/zero_density_estimate.py: compute_sup_rho_on_tau"]}
{"id": "C55", "title": "A formula given as text is read as the arithmetic it shows", "statement": "RationalFunction.parse(text) of a formula in numbers, x, + - * / ** and parentheses gives the function whose value at each x is the value of the formula under the usual precedence rules; no text has two readings; any other text is rejected. The texts the library composes itself, 3 * (expr) and 3k/((3k-2) * x + 2-k), mean what they show for every expr and every k. The text 3m/((3m-2)x + 2-m) made by the Ivic exponent pair method lacks a product sign and is rejected for every m.", "quantifier": "all texts, all x, all integers k and m", "why_tests_cant": "all strings of the grammar, nested to any depth, and every real x", "anchors": ["blueprint/src/python/functions.py: RationalFunction.parse", "blueprint/src/python/zero_density_energy_estimate.py: add_trivial_zero_density_energy_estimates", "blueprint/src/python/zero_density_estimate.py: ivic_ep_to_zd"]}
{"id": "C56", "title": "The best zero density energy estimate is the least known one at every sigma", "statement": "add_trivial_zero_density_energy_estimates(H) adds, for every zero density estimate A(x) <= f(x) of H, the energy estimate A*(x) <= 3 f(x) on the same interval, and A*(x) <= 3/(1-x); all follow from H. compute_best_energy_bound(H) then returns estimates that tile [1/2,1), each taken from a member of H and least among them at every point of its interval. Three parts of the expected behaviour are false: a piece not covered is returned as a zero density estimate; the bounds derived from computed (not literature) estimates cannot be read; the added estimates do not record what they follow from (refuted).", "quantifier": "all hypothesis sets, all x, all possible behaviour of the zeros", "why_tests_cant": "a minimum of arbitrarily many functions at every real x; truth quantifies over all possible worlds", "anchors": ["blueprint/src/python/zero_density_energy_estimate.py: add_trivial_zero_density_energy_estimates", "blueprint/src/python/zero_density_energy_estimate.py: compute_best_energy_bound"]}
{"id": "C57", "title": "Bounds on A*(sigma) derived from large value energy regions are the largest rho*/tau that the regions allow", "statement": "lver_to_energy_bound(H, tau0) takes the tuples that all large value energy regions of H allow for tau0 <= tau <= 2 tau0, and those that its zeta regions allow as well for 2 <= tau <= tau0. It returns estimates that tile the domain of tau0; at every rational sigma other than 1 the bound times 1 - sigma is the largest rho*/tau over these tuples, and where the sets of tuples continue past sigma the bound is true whenever H is. The estimates rest on regions computed from H only. If in one of the two ranges the tuples form a single polytope, as with convex estimates or an empty H, the call fails with a TypeError instead (refuted).", "quantifier": "all hypothesis sets, all affine tau0 that are positive on their domain, all sigma, all possible behaviour of the zeros", "why_tests_cant": "a supremum over arbitrary unions of polytopes in five dimensions at every sigma; truth quantifies over all possible worlds", "anchors": ["blueprint/src/python/zero_density_energy_estimate.py: lver_to_energy_bound", "blueprint/src/python/zero_density_energy_estimate.py: compute_sup_LV_on_tau", "blueprint/src/python/additive_energy.py: compute_best_lver", "blueprint/src/python/additive_energy.py: lver_to_energy"]}
{"id": "C58", "title": "The numbers printed for prime gaps bound the functions of the gap proposition for the best known estimates", "statement": "compute_gap2(H) prints one line per interval; the intervals tile [1/2, 1). The number of a line is the largest value on its closed interval of max(alpha, beta), where alpha(x) = 4x - 2 + 2(B(1-x) - 1)/(B - A) and beta(x) = 4x - 2 + (B(1-x) - 1)/A for bounds A and B that are, at each point of the interval, the least zero density bound and the least zero density energy bound in H (or the placeholder 10^6). So the largest printed number bounds alpha and beta on all of [1/2, 1). This holds where no denominator vanishes on the closed intervals; a zero of B - A inside an interval goes unnoticed, and a finite number is printed for an unbounded function (refuted).", "quantifier": "all hypothesis sets, all rational bounds on half-open intervals, all points of [1/2, 1), all complete solvers", "why_tests_cant": "a supremum over a continuum for arbitrary rational functions and arbitrary many estimates", "anchors": ["blueprint/src/python/prime_gap.py: compute_gap2"]}
{"id": "C59", "title": "Zero density bounds derived from large value energy regions are the largest rho/tau of the regions", "statement": "lver_to_zd(LVER, LVER_zeta, sigma_interval) returns estimates that tile the interval; at every rational sigma in a piece the value is the largest rho/tau over all tuples (sigma, tau, rho, rho*, s) of the two regions, and the dependencies are those of the regions. From the best regions over tau0 <= tau <= 2 tau0 and 2 <= tau <= tau0 that true hypotheses imply, the value bounds A(sigma)(1 - sigma). A hypothesis of another type raises ValueError, an empty region AttributeError, a region that is one polytope TypeError. The estimate returned says A(sigma) <= value, without the factor 1 - sigma, so a true hypothesis gives a false estimate; with no region the bound is -10^6 (refuted). lv_zlv_to_zd2 is meant to use 2/3 tau0 <= tau <= tau0 and 2 <= tau <= 4/3 tau0: the first range is exact, the second is unbounded because of a sign, and estimates can be lost on it (refuted).", "quantifier": "all regions of solid polytopes, all intervals, all affine tau0, all correct solvers", "why_tests_cant": "a supremum over a continuum of tuples for arbitrary regions; the sign error shows only in the set of points of a polytope", "anchors": ["blueprint/src/python/zero_density_estimate.py: lver_to_zd", "blueprint/src/python/zero_density_estimate.py: lv_zlv_to_zd2"]}
{"id": "C60", "title": "Zero density estimates from exponent pairs are the least bounds of Ivic and Bourgain", "statement": "ivic_ep_to_zd(pairs, m) returns the bound 3m/((3m-2)s + 2 - m) on the largest interval that Ivic's lemma allows for one of the pairs, with that pair as dependency, and the bound holds if the pairs are exponent pairs; without pairs it raises AttributeError. bourgain_ep_to_zd() returns estimates that tile [3/4, 1); on each piece the bound is that of one of the pairs, it is the least of the bounds of all pairs that apply, and on (3/4, 1) it equals the table of the corollary 'Optimized Bourgain zero density bound'; each estimate holds if the pair it names is an exponent pair. The text written by ivic_ep_to_zd lacks a product sign and cannot be read back; the first Bourgain estimate contains its pole 3/4; the eight pairs are hypotheses without support; ep_to_zd never returns (refuted).", "quantifier": "all lists of exponent pairs, all m >= 2, all real sigma, all complete root finders", "why_tests_cant": "the least of finitely many rational functions at every real sigma, and a limiting argument for pairs on the boundary of the theorem", "anchors": ["blueprint/src/python/zero_density_estimate.py: ivic_ep_to_zd", "blueprint/src/python/zero_density_estimate.py: bourgain_ep_to_zd", "blueprint/src/python/zero_density_estimate.py: ep_to_zd"]}
{"id": "C61", "title": "The large value estimates recorded from the literature say what the published theorems say", "statement": "The hypotheses added for Huxley, Heath-Brown, Guth-Maynard, Jutila (one for each k < K, named after it) and the twelfth power moment carry a region that is respected exactly when LV (or LV_zeta) stays below the published maximum on the whole recorded range. The region added for Bourgain's theorem consists of eight polytopes that overlap only in their boundaries, and it is respected whenever Bourgain's theorem, the trivial bound and Huxley's hold; outside the set of its fifth row it enforces the table of the blueprint, all of whose rows follow from the theorem. Over the fifth set it enforces nothing, because the coefficient of rho is missing; and two of the choices of alpha printed in the table do not yield their rows (refuted).", "quantifier": "all solvers satisfying their specification, all K, all worlds, all rational points of the range", "why_tests_cant": "equivalence of a region with a bound at every point, and derivation of the table from the theorem for all sigma, tau, rho", "anchors": ["blueprint/src/python/literature.py: add_huxley_large_values_estimate", "blueprint/src/python/literature.py: add_heath_brown_large_values_estimate", "blueprint/src/python/literature.py: add_jutila_large_values_estimate", "blueprint/src/python/literature.py: add_bourgain_large_values_estimate", "blueprint/src/python/literature.py: add_guth_maynard_large_values_estimate"]}
{"id": "C62", "title": "The large value energy regions recorded from the literature say what the published relations say", "statement": "The hypotheses added for Heath-Brown's and Ivic's bounds on double zeta sums, the Heath-Brown relations (for each k < K where there is a parameter) and the Guth-Maynard relations carry regions whose pieces overlap only in boundaries and can be used for computing, and which consist of exactly the tuples of the recorded range with the published relation; relations for a closed range of tau are recorded for the open range only (refuted at the ends). The first Guth-Maynard relation is not recorded: the coefficients of rho and rho* are exchanged in one row, so that the region excludes tuples which have the relation for every k (refuted). The power rule applies to the relations on rho and rho* and not to those on double zeta sums nor to the region recorded in the place of the Guth-Maynard relation (refuted).", "quantifier": "all solvers satisfying their specification, all K, all worlds, all rational tuples of the range", "why_tests_cant": "equality of a region with a set of tuples at every point, for every k", "anchors": ["blueprint/src/python/literature.py: add_lver_heath_brown_1979", "blueprint/src/python/literature.py: add_lver_ivic_1985", "blueprint/src/python/literature.py: add_lver_heath_brown_1979b1", "blueprint/src/python/literature.py: add_lver_heath_brown_1979b2", "blueprint/src/python/literature.py: add_lver_heath_brown_1979c", "blueprint/src/python/literature.py: add_lver_guth_maynard_2024a", "blueprint/src/python/literature.py: add_lver_guth_maynard_2024b", "blueprint/src/python/literature.py: add_lver_guth_maynard_2024c"]}
{"id": "C63", "title": "The zero density estimates recorded from the literature follow from the published ones", "statement": "The hypotheses added are one for each published row, in order, each with the range, the reference and a text which stands for the published value at every point of the range, also for the rows written by a loop with computed coefficients and ends. In every world where the published results hold, each recorded bound holds at every sigma of its range between 1/2 and 1, apart from the closed left ends of the rows of Pintz, which follow from nothing published (refuted); the bound 24/(30 sigma - 11) of Ivic is recorded further to the right than it was published and does not follow from what was known then, only from a later result (refuted). The energy estimates recorded hold exactly where Heath-Brown's additive energy bound holds.", "quantifier": "all worlds, all rational sigma, all lists of earlier hypotheses, all reference lookups", "why_tests_cant": "a hundred and fifty bounds at every point of their ranges, many written by a loop", "anchors": ["blueprint/src/python/literature.py: add_zero_density_ingham_1940", "blueprint/src/python/literature.py: add_zero_density_montgomery_1971", "blueprint/src/python/literature.py: add_zero_density_huxley_1972", "blueprint/src/python/literature.py: add_zero_density_ivic_1980", "blueprint/src/python/literature.py: add_zero_density_bourgain_2000", "blueprint/src/python/literature.py: add_zero_density_pintz_2023", "blueprint/src/python/literature.py: add_zero_density_guth_maynard_2024", "blueprint/src/python/literature.py: add_zero_density_energy_heath_brown_1979"]}
{"id": "C64", "title": "Intervals are read from text and printed as text without changing them", "statement": "A text is read as a fraction exactly when it is an integer, a quotient of integers with nonzero denominator or a decimal, with an optional sign and white space around, and its value is the one it denotes. An interval is read exactly when the text between its first and last character starts with two such fractions separated by commas, the first not larger; a square bracket includes the end and every other character excludes it. Texts of the usual form are read as what they say, or are an error if the ends are the wrong way round. A printed interval reads back as an equal interval. Texts with other brackets or further components are read too, although they denote no interval (refuted).", "quantifier": "all texts, all intervals with rational ends", "why_tests_cant": "the texts are unbounded, and every recorded range in the tables of published results goes through this reader", "anchors": ["blueprint/src/python/functions.py: class Interval", "blueprint/src/python/functions.py: def parse", "blueprint/src/python/functions.py: def __repr__"]}
{"id": "C65", "title": "The bounds on beta recorded from the literature are the published ones", "statement": "For every truncation of the two infinite families, adding the bounds on beta from the literature succeeds when every reference has an author and a year, and the hypotheses fall into groups, one for each row of a published theorem, in order: those of a group cite the right reference, are named after it and the range, together cover exactly the range of the row, and give exactly its value, also where the row is a maximum of several lines. In every world where upper bounds can be raised and the trivial bounds hold, all these hypotheses are true exactly when all the published theorems are, including the combined table of Trudgian and Yang of which only three rows are recorded. The bounds recorded for the first theorem of Huxley (1993) neither follow from that theorem nor imply it, because an end is recorded as 49/144 instead of 49/114 (refuted).", "quantifier": "all truncations, all reference lookups, all worlds, all rational alpha", "why_tests_cant": "over sixty bounds and two infinite families, each at every point of its range", "anchors": ["blueprint/src/python/literature.py: add_beta_bound_watt_1989", "blueprint/src/python/literature.py: add_beta_bound_huxley_1993", "blueprint/src/python/literature.py: add_beta_bound_huxley_1996", "blueprint/src/python/literature.py: add_beta_bound_sargos_1995", "blueprint/src/python/literature.py: add_beta_bound_robert_2016_2", "blueprint/src/python/literature.py: add_beta_bound_heath_brown_2017", "blueprint/src/python/literature.py: add_beta_bound_bourgain_2017", "blueprint/src/python/literature.py: add_beta_bound_trudgian_yang_2024", "blueprint/src/python/bound_beta.py: add_beta_bound"]}
{"id": "C66", "title": "The exponent pairs recorded from the literature are the published ones and follow from the recorded bounds on beta", "statement": "For every truncation of the two infinite sequences, adding the exponent pairs succeeds, and the hypotheses are, in order and under the right references, exactly the published pairs; each lies in the triangle of exponent pairs and on the side l >= k + 1/2 that the database keeps to. They are true exactly where the published pairs are. Every one of them follows from the published bounds on beta, the reflection law and van der Corput's A process: Heath-Brown's whole sequence from Heath-Brown's bounds on beta, Huxley's whole sequence by the A process from its first member, the derivative tests and the other pairs from the tables. The four pairs that derived.py proves anew follow from the same facts.", "quantifier": "all truncations, all indices of the sequences, all reference lookups, all admissible worlds", "why_tests_cant": "infinite sequences of pairs, each a claim about every alpha in [0,1]", "anchors": ["blueprint/src/python/literature.py: add_literature_exponent_pairs", "blueprint/src/python/literature.py: add_huxley_exponent_pairs", "blueprint/src/python/literature.py: add_heath_brown_exponent_pairs", "blueprint/src/python/exponent_pair.py: literature_exp_pair", "blueprint/src/python/derived.py: prove_exponent_pair"]}
{"id": "C67", "title": "The bounds on mu recorded from the literature follow from the rest of the database, and are selected by year", "statement": "For every truncation the recorded bounds on mu are the listed ones and the sequences of van der Corput and of Hardy and Littlewood, under the right names and references; each is stated at some sigma in [1/2,1), is positive and is strictly better than the convexity bound. They are true exactly where the listed bounds are, and all of them follow from the published bounds on beta, the A process, the convexity of mu and mu(1) <= 0. Whatever else the literature contains and in whatever order it is iterated: add_bounds_mu_all and add_exp_pairs_all copy exactly the recorded bounds and pairs (and the trivial pair), add_bounds_mu_as_of and add_exp_pairs_up_to exactly those whose year is known and not later than the given one, and add_bounds_mu_classic adds the bound of Hardy and Littlewood (1923).", "quantifier": "all truncations, all reference lookups, all admissible worlds, all orders of the literature, all years", "why_tests_cant": "infinite sequences, all iteration orders of a set", "anchors": ["blueprint/src/python/literature.py: add_literature_bounds_mu", "blueprint/src/python/literature.py: add_bounds_mu_classic", "blueprint/src/python/literature.py: add_bounds_mu_all", "blueprint/src/python/literature.py: add_bounds_mu_as_of", "blueprint/src/python/literature.py: add_exp_pairs_all", "blueprint/src/python/literature.py: add_exp_pairs_up_to", "blueprint/src/python/bound_mu.py: literature_bound_mu", "blueprint/src/python/hypotheses.py: is_match", "blueprint/src/python/hypotheses.py: list_hypotheses"]}
{"id": "C68", "title": "A derived exponent pair is the one asked for, true, and rests on the given hypotheses", "statement": "Whenever prove_exponent_pair or prove_exponent_pair_with_hypotheses returns a hypothesis, it is the exponent pair that was asked for. Its recorded proof rests on the given hypotheses and nothing else. It is true wherever they are, provided the set holds the trivial pair and another one, its pairs lie in the triangle with l >= k + 1/2, and no bound on beta is negative or better at 1/2 than every pair. The literature meets this condition whatever the truncations, so every pair found from it follows from the published bounds on beta, the A process and the C process. Without the condition a false pair can be derived from true hypotheses. A pair that is among the hypotheses is always found. Simplification keeps a proof a proof, and never runs out of hypotheses; but as a set yields the same member each time, it removes nothing at all once the first member cannot be spared. prove_hardy_littlewood_mu_bound derives mu(1/2) <= 1/6 from the trivial pair and the transforms A and B.", "quantifier": "all sets of hypotheses, all pairs, all orders of traversal, all hull routines meeting their specification, all truncations of the literature, all admissible worlds", "why_tests_cant": "all worlds and all alpha; the literature yields thousands of hypotheses and the proof is searched for", "anchors": ["blueprint/src/python/derived.py: prove_hardy_littlewood_mu_bound", "blueprint/src/python/derived.py: prove_exponent_pair_with_hypotheses", "blueprint/src/python/derived.py: prove_exponent_pair", "blueprint/src/python/exponent_pair.py: compute_exp_pairs", "blueprint/src/python/exponent_pair.py: exponent_pairs_to_beta_bounds", "blueprint/src/python/exponent_pair.py: beta_bounds_to_exponent_pairs", "blueprint/src/python/bound_beta.py: compute_best_beta_bounds"]}
{"id": "C69", "title": "A zero density estimate proved from large value estimates is the best one they give, and is true where they are", "statement": "prove_zero_density with method 1, a number tau0 > 2 and large value estimates that each record a maximum of bounds always returns. The returned estimates tile the range of sigma, and at each sigma the bound is exactly the largest rho / tau, over tau in [2, 2 tau0], that the given estimates and the classical one permit when raised to the powers 1 to 5. Wherever those estimates hold, A(sigma) is at most this value divided by 1 - sigma. With another method than 1 and 2 it raises. prove_zero_density_ingham_1940 derives A <= 3/(2 - sigma) on [1/2, 3/4). prove_zero_density_jutila_1977 finds the estimate with k = 3 among all that are recorded and derives A <= 2 on [11/14, 1). prove_zero_density_guth_maynard_2024 finds the estimate of Guth and Maynard and derives A <= 15/(5 sigma + 3) on [7/10, 9/10). The order in which sets are traversed does not matter.", "quantifier": "all lists of large value estimates, all ranges in [1/2, 1], all tau0 up to the recorded range, all sigma, all orders of traversal, all solvers meeting their specification, all admissible worlds", "why_tests_cant": "the estimates are for all sigma and all worlds; the regions are cut into pieces in an order that varies between runs", "anchors": ["blueprint/src/python/derived.py: prove_zero_density", "blueprint/src/python/derived.py: prove_zero_density_ingham_1940", "blueprint/src/python/derived.py: prove_zero_density_jutila_1977", "blueprint/src/python/derived.py: prove_zero_density_guth_maynard_2024", "blueprint/src/python/zero_density_estimate.py: lv_zlv_to_zd", "blueprint/src/python/zero_density_estimate.py: compute_sup_rho_on_tau", "blueprint/src/python/hypotheses.py: find_hypothesis"]}
{"id": "C70", "title": "A zero density estimate proved from large value estimates together with estimates for the zeta function is exact, and Heath-Brown's estimates follow", "statement": "prove_zero_density also takes estimates for the large values of zeta sums among the additional estimates. With method 1 and a number tau0 > 2 it returns, and at each sigma the bound is exactly the larger of two numbers: the largest rho / tau over tau in [tau0, 2 tau0] permitted by the large value estimates raised to the powers 1 to 5, and the largest over tau in [2, tau0] permitted by these and the zeta estimates together. Wherever all estimates hold, A(sigma) is at most this value divided by 1 - sigma. prove_zero_density_heathbrown_1979a finds the estimate of Jutila with k = 3 and the estimate from the twelfth moment among all that are recorded and derives A <= 9/(7 sigma - 1) on [11/14, 1). prove_zero_density_heathbrown_1979b also finds the large value estimate of Heath-Brown and derives A <= 3/(10 sigma - 7) on [20/23, 25/28) and A <= 4/(4 sigma - 1) on [25/28, 1). If no zeta estimate is recorded both raise.", "quantifier": "all lists of estimates of both kinds in any order, all ranges in [1/2, 1], all tau0 up to the recorded range, all sigma, all orders of traversal, all solvers meeting their specification, all admissible worlds", "why_tests_cant": "the estimates are for all sigma and all worlds; the regions are cut into pieces in an order that varies between runs", "anchors": ["blueprint/src/python/derived.py: prove_zero_density", "blueprint/src/python/derived.py: prove_zero_density_heathbrown_1979a", "blueprint/src/python/derived.py: prove_zero_density_heathbrown_1979b", "blueprint/src/python/zero_density_estimate.py: lv_zlv_to_zd", "blueprint/src/python/zero_density_estimate.py: compute_sup_rho_on_tau", "blueprint/src/python/hypotheses.py: find_hypothesis"]}
{"id": "C71", "title": "The table recorded for Bourgain's large value theorem is the best choice of its two parameters everywhere, but the routines meant to derive and to check it cannot run", "statement": "Bourgain's theorem bounds rho by the largest of six expressions in sigma, tau and two free parameters alpha_1, alpha_2 >= 0. For every sigma in [1/2, 1] and tau >= 1, the bound recorded by add_bourgain_large_values_estimate on each of its sets is the least that any parameters give, and is attained by one of the candidates that optimize_bourgain_large_value_estimate enumerates (the parameters at which three of eight equations hold); off the fifth set and for tau > 1 the recorded region is exactly rho <= this least value. optimize_bourgain_large_value_estimate itself raises TypeError on every call, since it calls Polytope.lift with the wrong arguments, and check_bourgain_large_value_estimate raises AttributeError for every large value estimate, since estimates carry no bound. With the bound at hand and a linear programming solver that finds a minimum the check would be right: on a grid of any size it passes for the least value, and fails for a bound off by the tolerance at a point of the grid.", "quantifier": "all sigma in [1/2, 1], all tau >= 1, all parameters, all linear programming solvers meeting their specification, all grid sizes, all bounds", "why_tests_cant": "optimality is over all real parameters at all points of a two-dimensional region; the numerical check in the source cannot run and looks at a finite grid only", "anchors": ["blueprint/src/python/large_values.py: optimize_bourgain_large_value_estimate", "blueprint/src/python/large_values.py: check_bourgain_large_value_estimate", "blueprint/src/python/literature.py: add_bourgain_large_values_estimate"]}
{"id": "C72", "title": "The worked derivation of the Guth-Maynard large value theorem finds exactly the published range of rho, but prints it under the wrong name", "statement": "Run over a literature with the recorded Guth-Maynard energy regions, prove_guth_maynard_large_values_theorem finds the three regions it asks for by name, intersects them, projects to (sigma, tau, rho), fixes tau = 6/5 and joins the pieces to one polytope, which is exactly 7/10 <= sigma <= 8/10 and 0 <= rho <= max(2 - 2 sigma, 18/5 - 4 sigma, tau + 12/5 - 4 sigma) at tau = 6/5; this holds in whatever order the hypotheses and pieces are met. The range is true of every large value pattern wherever the published relations hold, although one of the regions is not recorded as published. The printed text is not the theorem: it calls the second variable, which is rho, tau, so read by the names in it it says nothing of rho and excludes tau = 6/5 throughout. Without one of the regions the call raises AttributeError, and prove_all_large_value_estimates raises TypeError before it reaches this derivation.", "quantifier": "all literatures with these regions, all orders of iteration over sets, all solvers meeting their specification, all sigma, tau and rho, all worlds obeying the relations", "why_tests_cant": "exactness is over a continuum of points of a projection of an intersection of five-dimensional polytopes, in all orders of set iteration; a test runs one order and reads one printed line", "anchors": ["blueprint/src/python/derived.py: prove_guth_maynard_large_values_theorem", "blueprint/src/python/derived.py: prove_bourgain_large_values_theorem", "blueprint/src/python/derived.py: prove_all_large_value_estimates"]}
{"id": "C73", "title": "Six worked derivations of additive energy bounds give exactly the bounds of the literature, or better ones, while the derivations of Heath-Brown's bounds never return", "statement": "Run over a literature with the recorded large value estimates and Heath-Brown's energy region 2a, prove_zero_density_energy_2 finds its hypotheses by name and returns pieces that tile [7/10, 3/4), on which the bound on A*(sigma) is exactly max(5(18 - 19 sigma)/(2(5 sigma + 3)), 2(45 - 44 sigma)/(2 sigma + 15)) / (1 - sigma) at every rational sigma, in whatever order sets are iterated; the bound follows from the classical estimate, that of Guth and Maynard and the region 2a alone. In the same way prove_zero_density_energy_5 gives max((18 - 19 sigma)/(6(15 sigma - 11)), 3(18 - 19 sigma)/(4(4 sigma - 1))) / (1 - sigma) on [42/55, 79/103) from Jutila's estimate with k = 6 and the region, and prove_zero_density_energy_6 gives max((18 - 19 sigma)/(2(37 sigma - 27)), 5(18 - 19 sigma)/(2(13 sigma - 3))) / (1 - sigma) on [79/103, 84/109) from that with k = 5. From the estimate of Guth and Maynard, one of Jutila's and the region, prove_zero_density_energy_4 (k = 10) gives max(min((650 sigma - 473)/(5(190 sigma - 141)), (72 - 91 sigma)/(7(11 sigma - 8))), 5(18 - 19 sigma)/(2(5 sigma + 3))) / (1 - sigma) on [664/877, 31/40), prove_zero_density_energy_8 (k = 13) gives max((270 sigma - 173)/(16(125 sigma - 93)), (890 sigma - 653)/(10(125 sigma - 93)), (1151 - 1190 sigma)/(20(15 sigma - 2))) / (1 - sigma) on [37/49, 443/586), and prove_zero_density_energy_10 (k = 11) gives max(min((730 sigma - 533)/(30(35 sigma - 26)), 3(26 - 33 sigma)/(85 sigma - 62)), (174 - 185 sigma)/(31 sigma + 2)) / (1 - sigma) on [373/493, 103/136); the bounds the blueprint displays for the fourth and the tenth are at least these, and for the eighth equal to it. prove_heath_brown_energy_estimate and prove_improved_heath_brown_energy_estimate raise for every input, since they pass a hypothesis where a set is asked for, and so does prove_all_zero_density_energy_estimates, before it comes to any other derivation.", "quantifier": "all literatures with these hypotheses, all orders of iteration over sets, all solvers meeting their specification, all rational sigma in the range, all worlds in which the hypotheses hold", "why_tests_cant": "the bound is the supremum of a quotient over a non-convex region in five dimensions, cut out by five powers of three relations, for a continuum of sigma; a test compares a few values in one order of iteration", "anchors": ["blueprint/src/python/derived.py: prove_zero_density_energy_2", "blueprint/src/python/derived.py: prove_zero_density_energy_4", "blueprint/src/python/derived.py: prove_zero_density_energy_5", "blueprint/src/python/derived.py: prove_zero_density_energy_6", "blueprint/src/python/derived.py: prove_zero_density_energy_8", "blueprint/src/python/derived.py: prove_zero_density_energy_10", "blueprint/src/python/derived.py: prove_heath_brown_energy_estimate", "blueprint/src/python/derived.py: prove_improved_heath_brown_energy_estimate", "blueprint/src/python/derived.py: prove_all_zero_density_energy_estimates", "blueprint/src/python/zero_density_energy_estimate.py: lver_to_energy_bound"]}
{"id": "C74", "title": "The additive energy bounds entered for the prime gap computation are those derived, except just before a rounded switching point", "statement": "The five additive energy bounds that prove_prime_gap2 enters hold in exactly those worlds in which the five formulas of the literature bound A*(sigma) on the half-open ranges whose inner ends are 7/10, the float nearest to 0.72557823309639009733, 3/4, 289/380, the float nearest to 0.79291828938916739249 and 5/6. On [7/10, 3/4) the bound entered equals the one derived by prove_zero_density_energy_2, and so follows from the classical estimate, that of Guth and Maynard and the energy region 2a, at every rational sigma except where 690 sigma^2 - 1617 sigma + 810 < 0 and sigma is below the first float; that exception is not empty, is shorter than 10^-16, and on it the bound entered is smaller than the one derived. On all of [7/10, 5/6) the table is at most the bound of Heath-Brown that the literature already has, and below it everywhere but at 7/10.", "quantifier": "all worlds, all references, all rational sigma in [7/10, 5/6)", "why_tests_cant": "that two piecewise formulas agree at every sigma but those in an interval shorter than the spacing of the floats cannot be seen by evaluating them at floats", "anchors": ["blueprint/src/python/derived.py: prove_prime_gap2", "blueprint/src/python/derived.py: prove_zero_density_energy_2", "blueprint/src/python/zero_density_energy_estimate.py: literature_zero_density_energy_estimate"]}
{"id": "C75", "title": "Of the zero density estimates entered for the prime gap computation the first two repeat published results, the third does on part of its range, and neither the whole of the third nor the last two follow from them", "statement": "Before it computes the gap, prove_prime_gap2 adds to its hypotheses three zero density estimates, those that bourgain_ep_to_zd returns, and two more; each of the five states the bound of its text on its range: 2/(9 sigma - 6) on [17/22, 38/49], 9/(8(2 sigma - 1)) on [38/49, 4/5], 3/(10 sigma - 7) on [701/1000, 1], 3/(40 sigma - 35) on [39/40, 40/41) and 2/(13 sigma - 10) on [40/41, 41/42). In every world in which the published zero density theorems hold, the first two are true, and the third is true up to 9/10 and from 47/50 on. For the third on its whole range and for each of the last two there is a world in which all published theorems hold and the estimate is false, so it does not follow from them.", "quantifier": "all hypothesis sets, all functions that find roots, all worlds in which the published theorems hold, all rational sigma in the ranges", "why_tests_cant": "that a bound is implied by others in every world, or that it is not, is a statement about all possible values of a function on a continuum", "anchors": ["blueprint/src/python/derived.py: prove_prime_gap2", "blueprint/src/python/zero_density_estimate.py: add_zero_density", "blueprint/src/python/zero_density_estimate.py: bourgain_ep_to_zd"]}
