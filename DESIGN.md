# Formal model of teorth/expdb (blueprint/src/python) in Rocq

All paths below are relative to `/repo/blueprint/src/python`. Nothing in
`/repo` is built or run; the model is a reading of the text.

## 1. Method

* Numbers. The code computes with Python `Fraction` and `int`; they are modelled
  by `Q` of the standard library with `==` for equality. Values that the code
  obtains from sympy as exact algebraic numbers are reals. Floating point is not
  modelled (scipy's hull is taken to be exact, see section 4).
* Exceptions are values: `res A := Ret a | Raise e` (file `Base.v`).
* Mutation in place is modelled by returning the new value. Where aliasing is
  observable (the data dictionary of hypothesis sets, shared `Affine` objects)
  the model has an explicit store or returns the new value of the aliased object.
* Python `set` iteration order is unspecified: theorems quantify over every
  enumeration.
* `while` loops carry fuel that is proved to be sufficient.
* External solvers (cdd LP and double description, scipy `ConvexHull`, sympy
  `solve` and `parse_expr`) are parameters of the model. A theorem that needs
  something of a solver has it as a hypothesis (`ext_ok`, `hull_spec`,
  `solve_complete`, `adjacency_ok`), and for each of these there is a solver in
  the development that is proved to satisfy it (`fm_ext_ok`: Fourier-Motzkin and
  hull; `wrap_hull`: gift wrapping; `solver_exists`; `all_pairs_adjacency`), so
  the hypotheses are not vacuous.
* Analytic number theory enters through *worlds*: arbitrary predicates for
  "beta(a) <= v", "mu(s) <= m", "LV(s,t) >= r" and so on, subject to the published
  rules the code relies on (`admissible`, `lv_admissible`, `en_admissible`,
  `d_admissible`). A derivation is sound if in every such world the result holds
  when its hypotheses do. Concrete worlds show that the rules are satisfiable.
* One `Model_*.v` file per source module (definitions only, each with the
  file and lines it models), `Spec_*.v` for the specification vocabulary used in
  theorem statements, `Proof_*.v` for lemmas, and `Prop_*.v` with the property
  theorems, cases meeting their hypotheses (`ex_...`) and `Print Assumptions`.
* A property that is false of the code has a theorem `..._refuted` with a witness,
  and the theorem with the guard that makes it true.

## 2. Per property: what is modelled and how it is proved

The theorems of each property are listed in `MANIFEST.json`.

| id | property | modelled | proof |
|----|----|----|----|
| C01 | Interval.intersect is set intersection | `Interval` with flags for the ends, `intersect` | case analysis on the order of the ends; statement about all rationals |
| C02 | Interval emptiness, equality and construction agree with the point set | constructor with its check, `contains`, `__eq__`, `is_empty`, `parse` of the string form | same; the string form by parsing the printed text |
| C03 | Affine.min_with / max_with return the exact pointwise optimum | `Affine.compare_with` cell by cell, including pieces appended where no competitor covers a cell, and the merge rule | invariant over the sorted critical points; refutation of the unguarded claim; guarded theorem |
| C04 | compute_best_beta_bounds is the exact lower envelope of the known beta bounds | `compute_best_beta_bounds` as a fold of `min_with` with index labels | induction over the list with the invariant of C03, every enumeration of the set; with different domains, by the merge invariant on the last step, where every point has two bounds |
| C05 | Polynomial arithmetic is pointwise and canonical | coefficient lists: add, subtract, multiply, trim | induction on coefficient lists |
| C06 | Polynomial equality and degree are semantic | `__eq__`, `degree` | root counting: equal values everywhere means equal coefficients |
| C07 | RationalFunction arithmetic is pointwise | pairs of polynomials with sympy's quotient as evaluation | field identities; refutations |
| C08 | RationalFunction.max / min tile the domain and are pointwise optimal | `_compute_optimal`, `max`, `min` with the equation solver as a parameter | sign constancy between critical points over the reals; tiling by induction; solver shown to exist |
| C09 | Polytope.intersect is set intersection | cdd matrices as flagged rows, `intersect`, `intersection` | induction over rows |
| C10 | Polytope.rect, scale and scale_all describe the box and the scaled set | `rect`, `scale`, `scale_all` | induction over coordinates |
| C11 | Polytope.substitute and lift are fibre and cylinder | `substitute`, `lift` | induction over the lift description |
| C12 | Polytope.is_empty decides feasibility with and without boundary | `is_empty` with the LP solver as a parameter | specification of LP; solver witnessed by Fourier-Motzkin elimination |
| C13 | Polytope.is_subset_of decides containment | `is_subset_of` | LP optimum over each row |
| C14 | Polytope.is_covered_by decides coverage by a union | `is_covered_by` | recursion over the covering list with exact fuel |
| C15 | Polytope.set_minus partitions the difference | `set_minus` | induction over rows, partition invariant |
| C16 | Polytope.try_union returns the union or None | `try_union` with envelope and facet combinations | a point of the envelope outside the union gives an open set outside |
| C17 | Region.contains has boolean semantics at every nesting | inductive region trees, `contains` | induction on trees |
| C18 | Region.substitute, scale_all and lift commute with membership | `substitute`, `scale_all`, `lift` on trees | induction on trees |
| C19 | Region.project is the coordinate projection of unions | `project` on trees | Fourier-Motzkin / vertex projection and induction |
| C20 | from_union_of_halfplanes equals box intersected with the union of halfspaces | `from_union_of_halfplanes` | induction over the list of half spaces |
| C21 | as_disjoint_union preserves the region up to boundaries | `_as_disjoint_union_poly` with merging and periodic simplification | invariant: same set up to finitely many hyperplanes, disjoint interiors, labels |
| C22 | simplify_union_of_polys terminates, preserves the union and reaches a fixpoint | `simplify_union_of_polys` with its while loops and index set | termination measure; union preserved; fixpoint; every set order |
| C23 | Hypothesis_Set behaves as a growing set | hypothesis sets over a store of objects | induction over operation histories |
| C24 | Cached data is never stale for the set it belongs to | the shared data dictionary and the `data_valid` flag in a store | induction over histories; refutations for copies and two routines |
| C25 | list_hypotheses and find_hypothesis select exactly the matching hypotheses | `list_hypotheses`, `find_hypothesis`, `is_match` | list induction |
| C26 | recursive_dependencies is the transitive closure | the graph of dependencies, visited set | reachability; termination by the number of unvisited nodes |
| C27 | proof_complexity and proof_date are monotone functions of the proof tree | `proof_complexity`, `proof_date` | closure of C26 and order of years |
| C28 | Reference.max_year is order independent | `max_year` with unknown and infinite years | permutation invariance; algebra of the maximum |
| C29 | Bibliography parsing respects brace nesting | bibtex reader: `_extract`, `_split_level`, `_parse` | brace depth as an automaton; round trip |
| C30 | Exponent pair transforms preserve the exponent-pair triangle | the transforms A, B, C, D of literature.py as rational maps | nra over the triangle |
| C31 | The van der Corput pairs have the classical closed form | iterated A and B | induction over k |
| C32 | compute_exp_pairs is sound and complete to the search depth | `compute_exp_pairs` as breadth first search, with and without pruning | induction over depth; pruning by hull membership |
| C33 | in_triangle decides membership in counter-clockwise triangles | `in_triangle` | cross products, nra |
| C34 | Exponent pairs and beta bounds are dual | `exponent_pairs_to_beta_bounds`, `beta_bounds_to_exponent_pairs` | convexity; round trips; hull specification witnessed by gift wrapping |
| C35 | mu-bound rules are sound for every convex function with the functional equation | the rules of bound_mu.py | soundness in every admissible world |
| C36 | best_mu_bound returns the best convexity consequence | `best_mu_bound` over the hull | lower hull as infimum of convex combinations |
| C37 | convert_bounds is the region rho <= max of bounds inside the box | `convert_bounds` | C20 and arithmetic |
| C38 | Raising to a power is the LV scaling rule and composes | `raise_to_power`, the same for energy regions | C18; soundness in admissible worlds |
| C39 | Zeta large value estimates derived from beta and mu bounds are sound | `beta_to_zlv`, `mu_to_zlv`, `lv_to_zlv`, `compute_large_value_estimate` | C20, C18; soundness in admissible worlds |
| C40 | compute_sup_rho_on_tau equals the supremum of rho/tau | `compute_sup_rho_on_tau` with edges, edge functions and RationalFunction.max | a quotient of linear functions is largest on a fibre at an edge; C08, C52 |
| C41 | Zero-density aggregation returns the pointwise best estimate | `Zero_Density_Estimate`, `best_zero_density_estimate`, `simplify` | C08 on each subinterval; tiling |
| C42 | ep_to_lver encodes the large value energy inequality of an exponent pair | `ep_to_lver` | C20 and arithmetic |
| C43 | Energy/large-value conversions keep the right coordinates | `lv_to_lver`, `lver_to_lv`, `lver_to_energy`, `expand_lver` | C18, C19, C21 |
| C44 | compute_best_lver only intersects known estimates | `compute_best_lver`, `compute_LV_star` | C21; soundness in admissible worlds |
| C45 | Piecewise.min_with and simplify are pointwise | `Affine2`, `Piecewise` | C09, C12, C16; list induction |
| C46 | Linear expression formatting is faithful | `Str_Helper.format` and the printing of polynomials, affine functions, polytopes, regions | readers written in the specification; round trip by induction |
| C47 | Proof search for exponent pairs returns a valid proof | `construct_proof`, `find_best_proof` | case analysis of the search; soundness of the convexity rule |
| C48 | Recorded dependencies suffice to re-derive every derived hypothesis | all derivation functions, with their dependency lists | truth of a derived hypothesis in every world where its dependencies hold |
| C49 | Polytope vertices, projection, centroid and hyperplane test are geometric | `get_vertices`, `project`, `get_centroid`, `intersects`, `from_V_rep` | hull membership; Fourier-Motzkin |
| C50 | The exponent pair conjecture is stored as a pair that can be an exponent pair | `exponent_pair_conjecture` | falsity in every world |
| C51 | The piecewise mu bound is the lower convex hull on every requested range | `best_mu_bound_piecewise` | hull edges in counter-clockwise order |
| C52 | get_edges lists every edge of a polytope | `get_edges` with cdd's adjacency list | an edge has two extreme points that are adjacent |
| C53 | The large value region over a domain combines every estimate | `compute_large_value_region`: clipping, removal of duplicates by text, labels, intersection, dependencies | C21, C22, C46; soundness in admissible worlds |
| C54 | Zero density estimates follow from the large value regions | `lv_zlv_to_zd` with the two calls of `compute_large_value_region`, the extension of the set by zeta large value estimates, `compute_sup_rho_on_tau` on both regions and the final `RF.max`. | The suprema are those of C40 and the maximum is C08's; soundness composes them with Corollary 11.7 as the law `zd_large` of the world. A world with LV(sigma,tau) = tau shows that the stored bound is not a bound on A(sigma). |
| C55 | A formula given as text is read as the arithmetic it shows | `RationalFunction.parse` on the sublanguage of sympy's expressions that the library uses: a lexer by characters and a recursive descent parser with Python's precedences, then the arithmetic of rational functions. | The specification is a grammar as inductive relations (text to tokens, tokens to formula) and a value relation. The parser is shown to accept exactly this grammar and to be deterministic; the texts composed by the library are derived from it for every parameter. |
| C56 | The best zero density energy estimate is the least known one at every sigma | `add_trivial_zero_density_energy_estimates`, `compute_best_energy_bound` and the hypothesis constructors of zero_density_energy_estimate.py, with the text formulas of C55 and the minimum of rational functions. | The trivial estimates are read by the grammar of C55. Minimality at every real x comes from the theorem on minima of rational functions. Truth is stated in worlds that contain zeros and their energy (`aworld`), constrained only by the blueprint's facts; such worlds are exhibited. |
| C57 | Bounds on A*(sigma) derived from large value energy regions are the largest rho*/tau that the regions allow | `lver_to_energy_bound` and `compute_sup_LV_on_tau` of zero_density_energy_estimate.py, on top of `compute_best_lver` and `lver_to_energy` (C51-C53) and of the supremum along edges (C49). | The domains are shown to be the ranges of the blueprint; the pieces of the best region are followed through projection, simplification, edges and the maximum of rational functions. Truth uses that finite unions of polytopes are closed, so that tuples which are limits of inner points are covered. The failure on a single polytope is proved for all sets of convex estimates. |
| C58 | The numbers printed for prime gaps bound the functions of the gap proposition for the best known estimates | `compute_gap2` of prime_gap.py; `sympy.solve(sympy.diff(...))` is a parameter that has all zeros of the derivative, and such a solver is shown to exist. Printing is replaced by the list of lines; `float` is the identity. | The best estimates come from C41 and C56. The end points of both lists are cut points, so one estimate of each kind holds on every cell; the maximum of a function without poles on a closed interval is at an end or at a zero of the derivative. |
| C59 | Zero density bounds derived from large value energy regions are the largest rho/tau of the regions | `lver_to_zd` and `lv_zlv_to_zd2` of zero_density_estimate.py with the type checks, the projection to (sigma, tau, rho), the suprema and the packing; printing is left out. tau0 is affine. | The projection is exact (C44), the suprema are those of C40, the best regions contain every tuple that occurs (C44, C57). The refuted theorems build a hypothesis from two wedges that is true in an explicit world. |
| C60 | Zero density estimates from exponent pairs are the least bounds of Ivic and Bourgain | `ivic_ep_to_zd`, `bourgain_ep_to_zd` (for an arbitrary list of pairs, then for the eight in the code) and `ep_to_zd` of zero_density_estimate.py. sympy's `real_roots` is a parameter that finds all real roots; the search for pairs in `ep_to_zd` is a parameter. | On a cell between neighbouring points no two bounds cross, because the cross-multiplied difference is linear and its zeros are points; the table is compared pair by pair. Soundness moves a pair a little towards (0, 1), where all conditions of the theorem are strict, and passes to the limit. |
| C61 | The large value estimates recorded from the literature say what the published theorems say | The functions of literature.py 713-848 that add large value estimates, with the coefficients as written there; `rm.get` is a parameter, and the functions return what they add. The theorems and the table of the blueprint are stated in Spec_LiteratureLV.v. | The estimates given by a maximum reduce to C37's exactness of `convert_bounds`. For Bourgain's table each row is derived from the two alternatives of the theorem by linear arithmetic over all cases of the maxima; the seven sets cover the range by a tree of case distinctions on the signs of their boundary lines; disjointness is checked for the 28 pairs of strict systems. |
| C62 | The large value energy regions recorded from the literature say what the published relations say | The functions of literature.py 855-1094 that add large value energy regions, with the coefficients as written there; `rm.get` is a parameter, and the functions return what they add. The relations of the blueprint, and the forms in which they are recorded, are stated in Spec_LiteratureEnergy.v. | A union of half-spaces in part of the range is shown to consist of pieces with interior points or none at all, given one strict witness for each piece, and appending a rectangle on the other side of a hyperplane keeps the pieces disjoint. The equivalence with the relation is linear arithmetic over the cases of the maxima; for the relations with a parameter the witnesses depend on 1/k. |
| C63 | The zero density estimates recorded from the literature follow from the published ones | The functions of literature.py 1095-1392 that add zero density and zero density energy estimates, with the texts, ranges and loops as written there. The published theorems are stated in Spec_LiteratureZD.v over a world in which A(sigma) <= v is a predicate, following the blueprint. | Each text is read once by the parser and its value compared with the published one by field arithmetic; the texts of the loops are read for every value of the loop variable by the grammar rules of the formula parser. The refutations use a world in which A drops at one point. |
| C64 | Intervals are read from text and printed as text without changing them | Interval.parse, the constructor for texts and __repr__ (functions.py 30-35, 49-52, 67-71), and the part of the constructor of Fraction that reads integers, quotients and decimals. The grammar of fractions and intervals is stated separately in Spec_IntervalText.v. | The scanner is shown to accept exactly the words of the grammar by induction on the digits; splitting at commas is inverted; printing produces a word of the grammar for an equal rational. |
| C65 | The bounds on beta recorded from the literature are the published ones | The functions of literature.py 28-352 that add bounds on beta and add_beta_bound (bound_beta.py 37-52), with the texts of the ranges, the lines and the loops as written there. The published theorems are stated in Spec_LiteratureBeta.v over a world in which beta(alpha) <= v is a predicate, following the blueprint. | Ranges are read by the verified reader, maxima by the exactness theorem of max_with. Both directions between rows and theorems are linear arithmetic at every point, with case splits at the ends of ranges; the two families are treated for a symbolic index. |
| C66 | The exponent pairs recorded from the literature are the published ones and follow from the recorded bounds on beta | The functions of literature.py 361-489 that add exponent pairs and literature_exp_pair (exponent_pair.py 31-38), with the fractions as written there. The pairs are stated in Spec_LiteraturePairs.v by derivative tests, points of the line l = k + 1/2 and the formulas of the two sequences. | Heath-Brown's sequence: between two corners of the lower envelope of the bounds on beta the bound is convex, and at a corner the distance to the line of the pair is (k-m)(k-m-1) times something positive. Huxley's sequence by induction with the A process. The other pairs by explicit covers of [0,1/2] by recorded bounds and linear arithmetic, and reflection for the rest. |
| C67 | The bounds on mu recorded from the literature follow from the rest of the database, and are selected by year | The functions of literature.py 601-690 that add bounds on mu, literature_bound_mu (bound_mu.py 47-54), and the functions of literature.py 492-499 and 697-710 that copy into a set, with list_hypotheses on trees. A set is a list in any order. | Van der Corput's pairs by induction with the A process from the trivial pair and reflection; the other bounds by convexity between two pairs. Selection by induction over the list, for every permutation. |
| C68 | A derived exponent pair is the one asked for, true, and rests on the given hypotheses | derived.py 23-128. A set is a list with an order of traversal that may be any; `set.pop` removes the member that an oracle picks, which may or may not depend on the attempt. Printing is not modelled. | The bounds that the search adds are lines of pairs obtained by A, B and C, and B turns the pairs on one side of the line l = k + 1/2 into the other; so at 1/2 and near 0 the best bounds are those of pairs in the set, which is what C34 needs. For the literature by a case analysis of the rows of C65. Rests_on by induction along the search of C33 and the edges of C34. |
| C69 | A zero density estimate proved from large value estimates is the best one they give, and is true where they are | derived.py 277-369, 411-419, 532-542 and hypotheses.py 197-212, on top of C53, C54, C40, C38 and C39. Plots and printing are not modelled; a set is a list in any order. | Every estimate that is used says what one list of bounds says at one power. The pieces that the set difference leaves out have no interior, so the region and the set of permitted points have the same interior; as the bounds fall in sigma, the largest rho / tau over the one is that over the other (a point on the boundary is approached from inside at a smaller sigma). lv_to_zlv cuts with an unbounded half-space, for which the subset test reads the value of a linear program that has no minimum: `anchored` says what is reported then, and an instance of the solver meets it. The three values by real algebra: which power settles which range of tau, and a point where it is attained. |
| C70 | A zero density estimate proved from large value estimates together with estimates for the zeta function is exact, and Heath-Brown's estimates follow | derived.py 277-369, 437-449, 467-483 on top of C69 and C39. | The zeta estimates cut the region over [2, tau0] further, so the proof of C69 is used with two systems of bounds; that a permitted point with positive rho remains at every sigma is all that is needed of the second. The values by real algebra, as in C69. |
| C71 | The table recorded for Bourgain's large value theorem is the best choice of its two parameters everywhere, but the routines meant to derive and to check it cannot run | large_values.py 190-360. | The optimum by linear duality, row by row: for each row of the table a mean of the six expressions in which no parameter has a negative weight. The candidates by computation of the 47 solved systems. The two refutations hold for every input. The check by induction over the grid, for any solver that finds a minimum. |
| C72 | The worked derivation of the Guth-Maynard large value theorem finds exactly the published range of rho, but prints it under the wrong name | derived.py 220-272. | The regions by the keyword search over the recorded names; the intersection, projection and substitution by the theorems of C43, C44 and C18; the pieces after substitution shown to cover the range, so that the union exists; the text through the reader of C46. Truth through the worlds of C62. |
| C73 | Six worked derivations of additive energy bounds give exactly the bounds of the literature, or better ones, while the derivations of Heath-Brown's bounds never return | derived.py 662-998, zero_density_energy_estimate.py 193-196. | The keyword search over the recorded names; the set of regions after lv_to_lver by C43; the value of lver_to_energy_bound from C57 with the supremum of rho*/tau worked out: an upper bound from the powers 2, 3 and 4 by cases, and interior points of the region that come near it. Truth directly from the worlds of C57. |
| C74 | The additive energy bounds entered for the prime gap computation are those derived, except just before a rounded switching point | derived.py 1018-1025; the two floats are the doubles nearest to the decimal literals, written as exact fractions. | The texts are read by the model of the parser (C55), each shown to have the value of the formula on its range. The difference of the first two bounds is a positive multiple of a quadratic polynomial, whose sign is bounded on both sides of the float. |
| C75 | Of the zero density estimates entered for the prime gap computation the first two repeat published results, the third does on part of its range, and neither the whole of the third nor the last two follow from them | derived.py 1009-1016; the intervals are given as rational ends in place of their texts. | Texts by the parser (C55) as in C63; comparison of rational functions on each range; for the third and the last two a world in which A(sigma)(1 - sigma) is constant up to a point and zero beyond, shown to satisfy every published theorem. |

## 3. Trusted base

* The kernel of Coq 8.16.1.
* The axioms listed in section 5.
* The reading of the Python source in the `Model_*.v` files, the Python semantics
  of the operations used there, and the simplifications named in their headers
  and in section 4.
* The specifications in `Spec_*.v`, in particular the published rules in the
  definitions of admissible worlds.

## 4. What is modelled and what is not

| source | modelled | not modelled |
|----|----|----|
| functions.py | `Interval` (all, with reading and printing), `Affine` (all), `Affine2`, `Piecewise` (at, min_with, crop, scale, simplify, check), `RationalFunction2` predicates, `RationalFunction` arithmetic, min, max, maximise, minimise, `parse` for the four operations and whole powers | `plot_domain`; `SympyHelper.to_frac` (taken to be exact); sympy's printer and fractional powers |
| polynomial.py | all | |
| polytope.py | all constructors and operations, `get_edges` | `plot`; `Constraint` and `Hyperplane` printing; cdd itself (parameter) |
| region.py, helpers/region_helper.py | all | `plot2d`, progress output |
| helpers/str_helper.py | all | |
| reference.py | all | reading the file from disk |
| hypotheses.py | hypothesis graph, sets, selection, cache | printing, `desc` |
| transform.py, constants.py | the constants and transforms used | `Proof_Optimization_Method` beyond the modes the code branches on |
| exponent_pair.py | all | scipy's hull (parameter) |
| bound_beta.py | all derivations | `display_beta_bounds` |
| bound_mu.py | all derivations | `prove_mu_bound` (prints the result of `best_mu_bound`) |
| large_values.py 18-360 | estimates, `convert_bounds`, `raise_to_power`, `optimize_bourgain_large_value_estimate` up to the call that raises, `check_bourgain_large_value_estimate` with exact numbers and the linear programming solver as a parameter | `apply_huxley_subdivision` (not implemented in the source) |
| zeta_large_values.py | all but `get_trivial_zlv`, which raises ValueError on every call | |
| additive_energy.py | all | |
| zero_density_estimate.py | estimates, `simplify`, `best_zero_density_estimate`, `compute_large_value_region`, `compute_sup_rho_on_tau`, `lv_zlv_to_zd`, `lv_zlv_to_zd2`, `lver_to_zd`, `ivic_ep_to_zd`, `bourgain_ep_to_zd`, `ep_to_zd` | `approx_bourgain_ep_to_zd`, the search in `ep_to_zd`, `optimize_pintz_zero_density` |
| zero_density_energy_estimate.py | estimates, trivial estimates, compute_best_energy_bound, lver_to_energy_bound, compute_sup_LV_on_tau | display; the counts in the text of a derivation |
| literature.py | the bounds on beta (28-352), the exponent pairs (361-499), the bounds on mu (601-710), the exponent pair transforms (507-591), the large value estimates and the zeta large value estimate (713-848), the large value energy regions (850-1094), the zero density and zero density energy estimates (1095-1392) | the other tables of published results, which are data |
| derived.py | 11-128, 220-272, 277-369, 411-419, 437-449, 467-483, 532-542, 662-998, 1009-1025 | the other worked proofs, which call the functions above |
| prime_gap.py | compute_gap2 | the output of debug=True |
| examples.py, visualizations.py | | scripts and plots |

Not modelled anywhere: `description` and `proof` strings of hypotheses, timing,
printing for `verbose` or `debug`, negative list indices, garbage collection.
Python integers and fractions that compare equal are not told apart.

Caveats:

* `scipy.spatial.ConvexHull` works in floating point and drops points that are
  nearly on an edge. The hull parameter of the model is exact.
* The cached hull of bound_mu.py and exponent_pair.py is modelled in
  `Model_Hypotheses.v` (property C24); `Model_BoundMu.v` recomputes it.
* `Region.__copy__` is shallow and `set_label` writes to polytopes that are shared
  between regions. In the model `set_label` gives a new tree. In
  `compute_large_value_region` the label of a shared polytope is overwritten
  before it is read for another hypothesis only if the clipped regions share a
  polytope object, and `as_disjoint_union` with tracking copies it before the
  label is used.
* `get_edges` reads the polyhedron that was computed before `canonicalize`
  replaced the matrix; for polytopes built by `from_V_rep` the vertices are
  therefore listed in the order of the constructor (`vertices_in_order`).
* sympy evaluates a quotient at a removable pole by cancelling it; the piecewise
  maximum is modelled with that in mind (`no_poles`).
* Zero density estimates are stored as bounds on A(sigma), although the routines
  of the module compute bounds on A(sigma)(1 - sigma).

## 5. Print Assumptions

No axiom is declared in the development. The theorems named in `MANIFEST.json` depend on the following, all from Coq's standard library (its construction of the real numbers, classical logic and choice).

**Closed under the global context** (400 theorems): all theorems of the manifest that are not named below.

**`Prop_PrimeGapDensity.gap_density_published`** (1 theorems): `gap_density_published`.

**`Prop_PrimeGapDensity.gap_density_published_refuted`** (1 theorems): `gap_density_published_refuted`.

**`Prop_PrimeGapDensity.gap_density_recorded`** (1 theorems): `gap_density_recorded`.

**`ClassicalDedekindReals.sig_forall_dec`, `FunctionalExtensionality.functional_extensionality_dep`** (33 theorems): `tiles_partition`, `rational_intersections`, `simplify_zero_density`, `simplify_closed_end_refuted`, `zero_density_at`, `parse_reads`, `parse_only_formulas`, `parse_three_times`, `ivic_text_read`, `trivial_energy_complete`, `trivial_energy_true`, `trivial_energy_computed_refuted`, `trivial_energy_supported_refuted`, `gap2_pole_refuted`, `lver_to_zd_types`, `lver_to_zd_nothing_refuted`, `ivic_ep_to_zd_value`, `ivic_ep_to_zd_sound`, `ivic_estimate_unreadable_refuted`, `ivic_no_pairs`, `bourgain_from_value`, `bourgain_ep_to_zd_table`, `bourgain_from_sound`, `bourgain_pole_included_refuted`, `bourgain_unsupported_refuted`, `energy_table_exact`, `prove_zero_density_method`, `heath_brown_needs_zeta`, `heath_brown_energy_refuted`, `all_energy_estimates_refuted`, `gap_energy_exact`, `gap_energy_value`, `entered_follows`.

**`ClassicalDedekindReals.sig_forall_dec`, `ClassicalDedekindReals.sig_not_dec`, `FunctionalExtensionality.functional_extensionality_dep`** (36 theorems): `rational_max_optimal`, `rational_min_optimal`, `rational_max_everywhere`, `rational_min_everywhere`, `sup_rho_on_tau`, `sup_rho_on_tau_right_end_refuted`, `best_zero_density_optimal`, `best_zero_density_everywhere`, `best_zero_density_true`, `best_zero_density_open_end_refuted`, `best_zero_density_supported_refuted`, `lv_zlv_to_zd_value`, `lv_zlv_to_zd_sound`, `best_energy_everywhere`, `best_energy_true`, `best_energy_with_trivial`, `best_energy_type_refuted`, `energy_bound_value`, `energy_bound_convex_refuted`, `lver_to_zd_value`, `lver_to_zd_convex_refuted`, `lv_zlv_to_zd2_value`, `zd_table_recorded`, `zd_table_follows`, `zd_table_true`, `ivic_1980_refuted`, `pintz_left_ends_refuted`, `prove_zero_density_value`, `prove_zero_density_sound`, `ingham_1940_proved`, `jutila_1977_proved`, `guth_maynard_2024_proved`, `zeta_density_value`, `zeta_density_sound`, `heath_brown_1979a_proved`, `heath_brown_1979b_proved`.

**`ClassicalDedekindReals.sig_forall_dec`, `Classical_Prop.classic`, `FunctionalExtensionality.functional_extensionality_dep`** (1 theorems): `solve_spec_on`.

**`ClassicalDedekindReals.sig_forall_dec`, `ClassicalDedekindReals.sig_not_dec`, `Classical_Prop.classic`, `FunctionalExtensionality.functional_extensionality_dep`** (12 theorems): `rational_maximise`, `rational_minimise`, `energy_bound_sound`, `gap2_lines`, `gap2_bounds`, `lver_to_zd_sound`, `energy_2_derivation`, `energy_5_derivation`, `energy_6_derivation`, `energy_4_derivation`, `energy_8_derivation`, `energy_10_derivation`.

**`ClassicalDedekindReals.sig_forall_dec`, `ClassicalUniqueChoice.dependent_unique_choice`, `Classical_Prop.classic`, `FunctionalExtensionality.functional_extensionality_dep`, `RelationalChoice.relational_choice`** (1 theorems): `solver_exists`.

**`ClassicalDedekindReals.sig_forall_dec`, `ClassicalDedekindReals.sig_not_dec`, `ClassicalUniqueChoice.dependent_unique_choice`, `Classical_Prop.classic`, `FunctionalExtensionality.functional_extensionality_dep`, `RelationalChoice.relational_choice`** (5 theorems): `sup_rho_on_tau_case`, `lv_zlv_to_zd_case`, `lv_zlv_to_zd_unscaled_refuted`, `lv_zlv_to_zd_set_refuted`, `lver_to_zd_unscaled_refuted`.

Each `Prop_*.v` file prints the assumptions of each of its theorems when it is built.

## 6. Findings

Statements that a reader of the documentation would expect and that are false of the code. Each has a theorem with a witness; the positive theorems next to it carry the guard that excludes the case.

* `min_with_unguarded_refuted` (Affine): The unguarded claim is false of the code: without labels, a piece that is alone somewhere is returned with its whole domain and merged with a different function, so that a returned piece is below every input.
* `min_with_first_piece_refuted` (Affine): Even with distinct labels the returned pieces can overlap with a non-minimal one listed first, so evaluating the first piece that contains the point is wrong.
* `best_beta_bounds_total_refuted` (BoundBeta): Without that condition the call can raise TypeError although all inputs are legitimate bounds: the same object occurs twice among the pieces and its working label is cleared at the first occurrence.
* `poly_divide_refuted` (Polynomial): [divide], documented to return the quotient as a rational function, returns for no pair of polynomials.
* `rational_div_number_refuted` (RationalFunction): Dividing by a number multiplies by it.
* `rational_minus_operator_refuted` (RationalFunction): The [-] operator raises for every argument.
* `rf2_is_constant_high_first_refuted` (RationalFunction): While the printing code (functions.py 697-715) lists them from the highest degree, under which reading [is_constant] is wrong: x/1 is called constant.
* `rf2_list_constructor_refuted` (RationalFunction): The documented "list of numbers" form of the constructor fails for every polynomial of positive degree.
* `rational_max_endpoint_refuted` (RationalFunction): A closed right endpoint of an input interval is lost
* `rational_max_closed_domain_refuted` (RationalFunction): The right end of a closed domain is not covered; a one-point domain gives no piece
* `rational_max_pole_refuted` (RationalFunction): A pole inside an input interval makes the choice wrong: max(1/x, 0) on [-1,2) is given as 1/x at -1/2.
* `polytope_equality_complete_refuted` (Polytope): The converse fails: a vertex list given to [from_V_rep] is kept as it is, so the segment [0,1] built from 0, 1/2, 1 is unequal to the one built from 0, 1.
* `polytope_scale_no_rows_refuted` (Polytope): Scaling a polytope with no rows (the whole space) fails.
* `polytope_lift_missing_dim_refuted` (Polytope): A lift that omits a dimension is not the cylinder over the projection: it substitutes zero. The square [1,2]x[1,2] lifted to its first coordinate only is empty.
* `polytope_is_empty_after_substitute_refuted` (Polytope): Rows that [substitute] turns into 0 >= 0 make the strict test answer "empty" for a set with interior points: substituting y := 0 in {0 <= x <= 1, 0 <= y <= 1}.
* `polytope_is_subset_of_unbounded_refuted` (Polytope): The objective value is read without looking at the status, so for an unbounded set the answer is whatever number the solver leaves there: a solver meeting the contract makes the half-line {x >= 0} a subset of {x <= 1}.
* `polytope_is_covered_by_flat_refuted` (Polytope): With an empty list the answer is False, also for an empty set; and a set with an equality row counts as covered by anything.
* `polytope_set_minus_equalities_refuted` (Polytope): Equality rows of B are ignored: removing the segment {y = 0, 0 <= x <= 1} from the unit square leaves nothing.
* `polytope_try_union_flat_refuted` (Polytope): For pieces without interior the returned polytope can be larger than the union: three separate segments on one line are merged into one.
* `region_lift_complement_refuted` (Region): [lift] of a complement is not the cylinder over the complement: it is the lift of the operand. The complement of [0,1], lifted with a second coordinate in [0,1], does not contain (2, 1/2).
* `region_project_intersection_refuted` (Region): It can contain more: [0,1]x[0,1] and [0,1]x[2,3] do not meet, but the intersection of their projections is [0,1].
* `region_project_one_survivor_refuted` (Region): An intersection in which one operand projects to the empty set raises.
* `region_is_subset_of_union_refuted` (Region): A union as the target is not supported: the children are regions, and [is_covered_by] needs polytopes.
* `region_as_disjoint_union_unsupported_refuted` (Region): Unions and complements are refused, and so is an empty intersection.
* `region_as_disjoint_union_boundary_refuted` (Region): Parts without interior disappear: [0,1] and [1,2] meet in 1.
* `region_simplify_flag_refuted` (Region): The returned flag does not tell whether anything was merged.
* `region_dependencies_sufficient_refuted` (Region): The recorded dependencies of the pieces need not suffice: with A = [0,1] u [2,3] labelled 0 and B = [0,1] labelled 1, the only piece of A n B depends on label 0 alone, but from the operands labelled 0 alone one gets the point 5/2 as well.
* `bibtex_split_level_joins_refuted` (Reference): With an empty piece it does not.
* `bibtex_at_sign_refuted` (Reference): An [@] inside a value breaks the whole file.
* `bibtex_unbraced_value_refuted` (Reference): A value without braces, as in [year = 2016], is dropped without notice.
* `bibtex_find_all_missing_refuted` (Reference): Raises KeyError as soon as one reference has no author.
* `cache_current_copy_refuted` (Hypotheses): With a copy it is not so: asking about the copy changes what the original answers.
* `cache_current_two_routines_refuted` (Hypotheses): Nor with two routines on one set: the second is handed the value of the first (exponent_pair.py and bound_mu.py use the same key).
* `list_hypotheses_year_refuted` (Hypotheses): "Up to a given year" is not honoured by derived results: one derived from a 2020 paper is listed for the year 1990.
* `proof_date_unknown_refuted` (Hypotheses): So a proof resting on an undated result is given a date all the same.
* `exponent_pair_conjecture_refuted` (ExponentPair): The pair stored for the exponent pair conjecture is not the one conjectured: (0,0) lies outside the triangle, so no world satisfies it.
* `exp_pairs_depth_bound_refuted` (ExponentPair): Documented is that search_depth bounds the number of times a transform is applied. With two transforms one round can apply both in a row.
* `exp_pairs_pruned_total_refuted` (ExponentPair): With pruning it need not: three pairs on a line make the hull routine fail.
* `in_triangle_degenerate_refuted` (ExponentPair): Degenerate triangles accept every point of their line, also far away.
* `beta_to_pairs_slope_refuted` (ExpDual): A bound whose slope is below 1/2: the pair (1/3, 7/12) is returned although beta(5/9) may exceed its line.
* `beta_to_pairs_gap_refuted` (ExpDual): Bounds with a hole between them are interpolated across the hole.
* `beta_to_pairs_domain_refuted` (ExpDual): A bound stated beyond 1/2, such as the trivial bound beta(a) <= a on [0,1] (bound_beta.py 73-80), makes the conversion return (-1, 1), false everywhere.
* `mu_convexity_theta_refuted` (BoundMu): The weight theta is not checked: with theta = 2 true bounds give a false one.
* `mu_best_collinear_refuted` (BoundMu): Exponent pairs on one line make the hull routine that prunes them fail, so that there is no answer.
* `mu_functional_closure_refuted` (BoundMu): The collected bounds are not closed under the functional equation: from mu(1/4) <= 1/4 follows mu(3/4) <= 0, but the answer at 3/4 is 1/12.
* `mu_piecewise_whole_range_refuted` (BoundMu): On the whole of [0,1], the range its edge pieces are written for, the call never returns: the upper edge of the hull makes an interval with its ends in the wrong order.
* `mu_piecewise_outside_refuted` (BoundMu): Ranges to the left of 0 or to the right of 1 are not answered either.
* `construct_proof_two_pairs_refuted` (ExpProof): Two pairs of the set have the requested one between them, and yet the search stops with a TypeError instead of a proof.
* `construct_proof_order_refuted` (ExpProof): The deep search tests triangles in one orientation only: whether a proof is found depends on the order in which the set is traversed.
* `construct_proof_deep_dependencies_refuted` (ExpProof): The deep search accepts three pairs on one line as a triangle that contains every point of the line. The recorded dependencies need not imply the pair: here they are all true in a world where the pair is false.
* `find_best_proof_none_refuted` (ExpProof): With no optimisation the pairs obtained by the transforms are computed and then ignored: the pair (2/7,4/7) = B(1/14,11/14) is not found, although it is with the other method.
* `find_best_proof_date_conjecture_refuted` (ExpProof): By date: one conjecture in the set (dated infinity) and the search stops with a TypeError.
* `beta_to_pairs_dependencies_refuted` (Support): The pairs obtained from bounds on beta record only the pieces that touch a vertex of the hull. The pieces below the hull are used as well: here the pair (1/8,5/8) records the first and the last of three pieces, and without the one in the middle it does not follow.
* `montgomery_conjecture_half_refuted` (LargeValues): The conjecture as it is stored is stronger than the one in the blueprint, which is LV(s, t) <= 2 - 2s for s > 1/2: at s = 1/2 the blueprint has LV(1/2, t) = t, so that the stored region excludes what happens.
* `raise_to_power_limit_refuted` (LargeValues): The limit on tau is not imposed again, although the comment says so: beyond the limit the raised region is as large as the old one is below it.
* `raise_to_power_fraction_refuted` (LargeValues): A fractional power below 1 is accepted but not true: with power 1/2 nothing is allowed beyond half the limit on tau.
* `beta_zlv_limit_refuted` (ZetaLargeValues): A bound whose domain lies below 1/TAU_UPPER_LIMIT spoils the limit on tau.
* `piecewise_min_unlabelled_refuted` (Piecewise): Two identical pieces without labels (the default) cannot be compared: min_with raises.
* `piecewise_min_touching_refuted` (Piecewise): Where the common domain is not full-dimensional the minimum is undefined: [0,1] x [0,1] and [1,2] x [0,1] share the edge x = 1.
* `piecewise_min_unbounded_refuted` (Piecewise): On an unbounded domain only the vertices are looked at and the result can be wrong: x and 1 on the half line x >= 0.
* `piecewise_scale_values_refuted` (Piecewise): Scaling does not transport the values: stretching x by 2, the value of [x] at (2,0) is 2, and not the value 1 it had at (1,0).
* `piecewise_check_defined_refuted` (Piecewise): [check] is not a proof that the function is defined everywhere: the samples stop short of the upper limits.
* `polynomial_text_strict_refuted` (Format): Not otherwise: 1 + x^2 is printed as "1 + + x^2".
* `published_power_rule_refuted` (AdditiveEnergy): The rule as published has a third pattern, one with s' = s / k. Together with the diagonal contribution to the double zeta sum, which makes s at least rho + 2, there would be no patterns at all.
* `raise_energy_double_sum_refuted` (AdditiveEnergy): The transform is applied to every region: with a lower bound on the double zeta sum, true of patterns, the square is not true.
* `raise_energy_fraction_refuted` (AdditiveEnergy): A power that is not a natural number is accepted but not true.
* `ep_to_lver_zero_refuted` (AdditiveEnergy): A pair with 1 + 2k + 2l = 0 raises ZeroDivisionError (not an exponent pair, so the guard of the other theorems excludes it).
* `lver_to_lv_limit_refuted` (AdditiveEnergy): At the limit it is not: the energy of 10^6 large values is not within the limits, and the region loses them.
* `lver_to_energy_zeta_refuted` (AdditiveEnergy): For a zeta large value energy region it does not: the result does not say that it is about zeta large values only.
* `compute_best_lver_domain_refuted` (AdditiveEnergy): Outside the domain nothing is claimed, but the result does not say so: it is a hypothesis about all sigma and tau.
* `compute_best_lver_boundary_refuted` (AdditiveEnergy): The hyperplanes cannot be left out: parts without interior are lost, such as the part with sigma = 1/2 of a region that allows rho > 1 up to there only.
* `sup_rho_on_tau_right_end_refuted` (ZeroDensity): The supremum over the whole fibre is not what is returned at the last sigma of a polytope: there the box has points with rho / tau = 1, and the result is the default.
* `simplify_closed_end_refuted` (DensityEstimate): Included upper ends are lost.
* `best_zero_density_open_end_refuted` (DensityEstimate): The lower end of an open interval is filled in with the estimate of that interval.
* `best_zero_density_supported_refuted` (DensityEstimate): The result does not name what it rests on: from an estimate supported by its dependencies comes one that is not.
* `large_value_region_dependencies_refuted` (LargeValueRegion): An estimate that cuts off whole pieces and contains the others leaves no trace: the region for Montgomery's conjecture is recorded as a consequence of the classical mean value estimate alone, with the date of a classical result.
* `large_value_region_domain_refuted` (LargeValueRegion): Nothing is claimed outside the domain, but the result is a hypothesis about all sigma and tau, and as such it is false.
* `lv_zlv_to_zd_unscaled_refuted` (DensityDerivation): The bound stored in an estimate is meant to be a bound on A(sigma). What lv_zlv_to_zd stores is a bound on A(sigma) (1 - sigma): the division by 1 - sigma is missing. From LV(sigma, tau) <= tau it returns A(5/8) <= 1, although in a world where that hypothesis is true A(5/8) is 8/3.
* `lv_zlv_to_zd_set_refuted` (DensityDerivation): The set of hypotheses given to lv_zlv_to_zd is an argument to read. It is changed: afterwards it also has the zeta large value estimates derived on the way.
* `best_energy_type_refuted` (DensityEnergy): A piece of the result without a hypothesis behind it is not an energy estimate: its type is that of zero density estimates. With the trivial estimates, one of which holds on all of [1/2, 1), there is such a piece near 1, where no energy estimate is left.
* `trivial_energy_computed_refuted` (DensityEnergy): The text of a computed zero density estimate is LaTeX. Three times such a text cannot be read, and the best energy bound is then not computed.
* `trivial_energy_supported_refuted` (DensityEnergy): A trivial estimate made from a zero density estimate does not name that estimate as a dependency, so what it records does not suffice for it.
* `energy_bound_convex_refuted` (EnergyDerivation): No bound for convex estimates: if every region in use is one polytope, the region for A*(sigma) is one polytope too, and the list of its children is asked for. Blueprint: the supremum of rho* / tau over it is a bound.
* `gap2_pole_refuted` (PrimeGap): A pole of the first function inside an interval is not noticed. Where the two bounds are equal the function is unbounded, and a number is printed.
* `lver_to_zd_unscaled_refuted` (DensityRoutes): The estimate says A(sigma) <= f(sigma) where f bounds A(sigma) (1 - sigma) (zero_density_estimate.py 516-528; line 518 prints "A(x)(1-x) \leq"): from a true hypothesis a false estimate.
* `lver_to_zd_nothing_refuted` (DensityRoutes): With both regions left out the bound -10^6, without dependencies (zero_density_estimate.py 491-516): A(sigma) would be negative.
* `lver_to_zd_convex_refuted` (DensityRoutes): A region that is one polytope is rejected with a TypeError (zero_density_estimate.py 498-501): the projection is a single polytope, over which the comprehension cannot iterate.
* `zd2_zeta_range_refuted` (DensityRoutes): The second range should be 2 <= tau <= 4/3 tau0. The coefficient of tau in the upper limit has the wrong sign (zero_density_estimate.py 444, comment "tau <= 4/3 * tau0"): where tau0 is positive every tau >= 2 is in the range, and there is no limit on sigma and rho.
* `zd2_zeta_region_refuted` (DensityRoutes): Over the second range, which is unbounded, an estimate can be lost (zero_density_estimate.py 438-447; polytope.py 669 looks at the objective value although the linear program has no optimum): with a correct solver the region computed from LV(sigma, tau) <= tau has points with rho > tau.
* `ivic_estimate_unreadable_refuted` (PairDensity): The text lacks a product sign (zero_density_estimate.py 555): the estimate that is returned can be evaluated nowhere, and the best estimate cannot be taken in any set that contains it.
* `bourgain_pole_included_refuted` (PairDensity): The first of the estimates is recorded on an interval that contains 3/4, where the bound is infinite: evaluating it there fails.
* `bourgain_unsupported_refuted` (PairDensity): The eight pairs are written into the code and recorded as hypotheses without dependencies; nothing that the caller supplies supports them. In a world in which Bourgain's theorem holds but they are not exponent pairs, the estimates are false.
* `ep_to_zd_refuted` (PairDensity): [ep_to_zd] never returns: it calls [bourgain_ep_to_zd] with an argument.
* `bourgain_table_choice_refuted` (LiteratureLV): The values of alpha_1 and alpha_2 that the table prints do not do it: in the third row alpha_1 can be negative, and in the fifth the theorem then allows more.
* `bourgain_unbounded_refuted` (LiteratureLV): Over the fifth set of the table, where the comment beside the polytope says "rho <= 8 - 12 sigma + 4/3 tau", nothing is recorded: the row of the polytope lacks the coefficient of rho, so the estimate holds even where LV is as large as can be written down - although the bound of the table follows from Bourgain's theorem.
* `range_ends_refuted` (LiteratureEnergy): The converse fails: at the ends of the range of tau the relations are not recorded. A pattern with tau = 3/2, or 1, or 4/3, and rho* = 3 rho is compatible with the regions and not with the relations.
* `gm_relation_swapped_refuted` (LiteratureEnergy): In the Guth-Maynard relation the coefficients of rho and rho* from the first bound on S_3 have been exchanged. A pattern with rho* = 3 rho that has the relation for every k is excluded by the recorded region, for every k.
* `power_rule_refuted` (LiteratureEnergy): The power rule does not apply to the regions that bound the double zeta sums, nor to the recorded Guth-Maynard relation, although the true relation is closed in the sense of the rule.
* `ivic_1980_refuted` (LiteratureZD): Ivic's bound 24 / (30 s - 11), which was published up to 17/18, is recorded up to 1, where it does not follow from what was published by then.
* `pintz_left_ends_refuted` (LiteratureZD): Every row from Pintz's theorem starts at a point at which the theorem gives less, and nothing else that was published helps.
* `interval_strict_refuted` (IntervalText): Texts that are not of that form are read too: brackets of any kind count as round ones, and further numbers are ignored.
* `huxley_1993_refuted` (LiteratureBeta): The published theorem of Huxley (1993) does not give the two bounds recorded for it, nor do they give it: the end 49/114 is recorded as 49/144.
* `derivation_unready_refuted` (Derived): From true hypotheses that do not meet the condition, the trivial pair and Bourgain's bound on beta, a pair is derived that is false.
* `optimize_bourgain_refuted` (BourgainOptimum): The search itself does not get that far: for the first three equations it already calls [Polytope.lift] with the wrong number of arguments, on every call.
* `check_bourgain_refuted` (BourgainOptimum): The comparison cannot be made for any large value estimate, whatever it says and whatever the solver returns: it asks for an attribute that estimates do not have.
* `guth_maynard_text_refuted` (GuthMaynard): The printed text calls the second variable, which is rho, tau: read with the names it uses it says nothing of rho and holds for no tuple with tau = 6/5.
* `prove_all_refuted` (GuthMaynard): Asked for all derivations, the program stops at Bourgain's theorem and this one is not reached, whatever is recorded.
* `heath_brown_energy_refuted` (EnergyProofs): Derived.py 662-812: the last call is given a hypothesis in the place of the set, and the function raises.
* `all_energy_estimates_refuted` (EnergyProofs): Derived.py 986-998: the list of all derivations raises in its first line.
* `entered_everywhere_derived_refuted` (PrimeGapProof): In [prove_prime_gap2] the change from the first to the second bound is entered as a float that is larger than the place where the two are equal, so just before it the bound that is entered is smaller than the one that was derived.
* `gap_density_published_refuted` (PrimeGapDensity): On the rest of its range the third does not, nor do the last two: they are smaller than what was published.

## 7. Testing the theorems against wrong programs

`seeded/LOG.jsonl` has one line per attempt: a definition of the model was edited
as a realistic bug would, the development was rebuilt, and the theorems that
failed were recorded. Where every theorem of the property survived, the theorems
were tightened until the edit was caught; the line names them.
