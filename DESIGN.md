# Formal model of epfl-lts2/pygsp in Rocq (Coq 8.16.1)

Contents: 1 conventions, 2 trusted base, 3 what is modelled and what is not (per file), 4 modelling
assumptions about the libraries, 5 property by property, 6 disagreements between the code and its
documentation (the `_refuted` theorems), 7 checks.

## 1 Conventions of the model

* Numbers: numpy/scipy floats and ints are idealised as Coq reals `R` (stdlib Reals). No rounding (but see C92, C01),
  no overflow (but see C96, C01). Where NaN/inf decide behaviour (constructor checks, 0/0 in the Merris bound, pruning
  of CSR arrays) the extended type `xval` is used. Structural facts (zero tests, equality, order,
  index arithmetic) are exact in floats too.
* Sparse adjacency: CSR as rows of stored `(column, value)` pairs, so `nnz`, `eliminate_zeros`,
  `sum_duplicates`, stored zeros and duplicates are visible. Derived matrices (L, D, U, ...) are
  functions `nat -> nat -> R` together with a size.
* Exceptions are values (`res`: `Ok v` or `Raise e`, with the Python exception class); state changes
  made before a raise persist where the property is about them (caches, caller's arrays).
* Randomness (numpy Generator), hash order (`set.pop`), the order of `argsort` on ties, nearest-neighbour
  answers and eigenvector signs are oracles, universally quantified in the theorems.
* Loops that may not end carry fuel; `None` means "still running". Either the fuel is proved
  sufficient or the statement is about the runs that end (and non-termination is stated separately,
  e.g. C52_nontermination_refuted).
* External solvers (eigh, eigsh, spsolve, cg, pinv, inv, KDTree) are parameters; theorems that need their
  contract have it as an explicit hypothesis (`eigh_ok`, `solves`, `inv_contract`, ...), and each is met by a
  concrete Example or a proved existence theorem (e.g. C35_solvable, C36_solvable, C40_solvable).
* Layout: `theories/Base` (finite sums, lists, linear algebra), `theories/Model` (definitions only, each citing
  file and lines), `theories/Spec` (small vocabulary used in statements; models no code), `theories/Proofs`
  (lemmas), `theories/Props` (theorems `Cnn_*`, each with an `Example` meeting its hypotheses).
* Names: `_partial` = only part of the claim; `_refuted` = the claim one would expect (or that the
  documentation makes) is false of the code, with a witness or for all inputs.

## 2 Trusted base

* Coq 8.16.1's kernel (and `coqchk`, run by the gate).
* Axioms: only those the standard library declares. `Print Assumptions` lists, for each theorem, a subset of
  `ClassicalDedekindReals.sig_forall_dec`, `ClassicalDedekindReals.sig_not_dec`,
  `FunctionalExtensionality.functional_extensionality_dep`, `Classical_Prop.classic`.
  The list per theorem is in ASSUMPTIONS.md (generated by tools/assumptions.py).
* No axiom, Parameter, functor, Module Type, Admitted or switched-off check of our own; the only library
  besides the standard library is Flocq (Core, Plus_error, Relative; it declares no axiom), used in Props/RoundProps.v, NormRoundProps.v
  to show that IEEE double precision is a rounding.
* The reading of /repo into Gallina (section 3), and the assumptions about Python, numpy, scipy, networkx and
  graph-tool in section 4. Nothing here was run against the code: the sandbox has neither the project's
  dependencies nor permission to run it.

## 3 What is modelled

| source | model | modelled | not modelled |
|---|---|---|---|
| graphs/graph.py | Graph, Bounds, Traverse, Cache, Live, LiveSpectral, Effects, Rounded, Dtypes | constructor, W, A, d, dw, n_edges, edge list, is_directed/has_loops/is_weighted, is_connected, extract_components, subgraph, signals, Laplacians, lmax bounds and estimation, dirichlet_energy, all caches | `to_*` logging, plot options, `__repr__` |
| graphs/difference.py | Difference, Cache, LiveSpectral | D, grad, div, compute_differential_operator | warnings |
| graphs/fourier.py | Filter, Cache, LiveSpectral | U, e, coherence, gft, igft, compute_fourier_basis | numerical eigensolver (contract only) |
| graphs/_io.py | IO | break/join signals, networkx and graph-tool import/export, save/load dispatch | file formats themselves, graph name |
| graphs/_layout.py | Layout | set_coordinates, both Fruchterman-Reingold variants, rescaling | |
| graphs/{path,ring,grid2d,torus,comet,star,fullconnected}.py | Generators | everything but plotting options | |
| graphs/{stochasticblockmodel,erdosrenyi,barabasialbert,randomregular}.py | Random | everything but logging | rv_discrete internals |
| graphs/{randomring,lowstretchtree,linegraph,community}.py | Ring, LineGraph, Community | everything but logging/plotting options | |
| graphs/nngraphs/nngraph.py | NNGraph | scipy searches, centring, rescaling, kernel widths, symmetrisation | pyflann / scikit-learn answers |
| graphs/nngraphs/{sensor,cube,sphere,twomoons,imgpatches,grid2dimgpatches}.py, graphs/{swissroll,davidsensornet}.py | Clouds | the points drawn (oracle) and the graph built from them | the data files (david64/500, two_moons) |
| graphs/{logo,airfoil,minnesota}.py, nngraphs/bunny.py | DataGraphs, Data/* | the constructors, on any file content; the index arrays and sparse matrices of airfoil, minnesota and logogsp.mat copied by tools/extract_data.py | loadmat; boolean weights are 0 and 1; coordinates of the files |
| filters/filter.py | Filter | evaluate, filter (exact, chebyshev), analyze, synthesize, localize, estimate/compute_frame_bounds, complement, inverse, compute_frame, len, +, indexing, call, @, toarray (Operators) | plot |
| filters/*.py (banks) | Kernels, LiveBanks | every kernel and its parameter checks; what each bank reads of its graph and when | |
| filters/approximations.py | Filter, Approx | Chebyshev coefficients and recurrences, cheby_rect, jackson, lanczos, lanczos_op | the diagnostic `orth` |
| features.py | Features | all | |
| learning.py | Learning | regression/classification, simplex projection, gradient step | pyunlocbox's solver internals (one step and its rate are proved) |
| reduction.py | Reduction, Sparsify, Multires | graph_sparsify, interpolate, graph_multiresolution, kron_reduction, pyramid analysis/synthesis, tree_multiresolution (C74) | the unreachable tail of _pyramid_single_interpolation |
| utils.py | Utils | symmetrize, distanz, resistance_distance, rescale_center, compute_log_scales | loaders, loggers |
| optimization.py | PyCall (C74) | that prox_tv cannot return | pyunlocbox |
| plotting.py | Plot, Figures | sizes, normalisation, limits, accepted arguments, colour detection, windows opened and closed, what is drawn for graphs and filters | rendering, styles, titles |

## 4 Assumptions about the libraries

* scipy CSR: `csr_matrix(A, copy=False)` shares arrays; `check_format` prunes; `_prune_array` copies when fewer than
  half (`// 2`) of the base array is used; comparison with a scalar calls `sum_duplicates` unless the format is
  canonical; `std::sort` on equal columns is taken stable. Sparse additions and comparisons store no zero.
  The caller's arrays are not views of larger arrays.
* `spsolve` returns a vector for a one-column right-hand side and a matrix otherwise, raises on an empty system;
  `eigs`/`eigsh` raise TypeError when k is too large for a sparse matrix.
* In graph_multiresolution the eigensolvers are taken to succeed on matrices they accept.
* numpy Generator: `choice(replace=False, p)` returns distinct indices of positive probability and raises
  when there are too few; `permutation` returns a permutation; `integers`/`uniform` stay in range.
* `rv_discrete.rvs` draws indices of the support; `itemfreq` (removed in recent scipy: then the code raises
  AttributeError) counts.
* KDTree: `query` returns the k nearest, ties in any order; `query_ball_point` the closed ball; NaN is rejected.
* Booleans: products and sums of bool sparse matrices are or/and; numpy refuses float indices.
* networkx/graph-tool: node and edge attribute dictionaries keep insertion order; graph-tool numbers vertices
  0..n-1. Names of signals are ASCII; paths are POSIX.
* Python: dictionaries keep insertion order; keyword arguments bind as in the language reference (Model/PyCall).

## 5 Property by property

Statements are in properties.jsonl, theorem names in MANIFEST.json.

| id | model | proof |
|---|---|---|
| C01 | Graph.graph_init on dense, CSR, COO inputs with NaN/inf | rows of stored values; finiteness of a sum of extended values; the finiteness check in floating point with overflow: Rounded.v f_sum, any order of the additions |
| C02 | count_edges on the pruned CSR | bijection between stored upper-triangular entries and edges (Card) |
| C03 | is_directed, has_loops, is_weighted with their caches | decision of matrix equalities over stored entries |
| C04 | get_edge_list | NoDup + membership; sortedness of canonical CSR rows |
| C05 | is_connected with oracle pop order and fuel | loop invariant (visited = reachable so far), measure for the fuel |
| C06 | extract_components | each pass returns one reachability class; partition by induction on passes |
| C07 | subgraph | index lists/masks composed with CSR selection |
| C08 | d, dw | finite sums over rows; handshake by exchange of sums |
| C09 | combinatorial Laplacian, undirected and directed | entrywise algebra, quadratic form as sum of squares |
| C10 | dirichlet_energy | same quadratic form, normalised version |
| C11 | normalized Laplacian incl. isolated vertices | Cauchy-Schwarz per edge, kernel by case analysis |
| C12 | compute_differential_operator | sum over the edge list |
| C13 | grad, div | adjointness by exchange of sums |
| C14 | four bounds of _get_upper_bound | maximum principle on an eigenvector |
| C15 | lmax cache as a state machine | invariant over call histories |
| C16 | U, e, L, D caches | invariant over call histories |
| C17 | gft, igft under the eigh contract | orthogonality sums, Parseval |
| C18 | coherence | Cauchy-Schwarz, pigeonhole of mass |
| C19 | Filter.filter(method='exact') | diagonalisation |
| C20 | cheby_coeff, cheby_op | discrete orthogonality of cosines, recurrence; error bound through the spectrum; Lebesgue-type constant 2o+2 against any polynomial, Taylor tail of exp, closed form for a pole (ChebRate) |
| C21 | analyze/synthesize | exchange of sums |
| C22 | frame bounds | extrema over the evaluated frequencies |
| C23 | Meyer, SimpleTight, Itersine, HalfCosine, Held, Simoncelli, Papadakis, Regular | trigonometric identities by pieces |
| C24 | complement | pointwise |
| C25 | inverse | pseudo-inverse of a one-column matrix |
| C26 | localize, compute_frame | linearity; index bookkeeping of reshape |
| C27 | _shape dispatch of filter | NdArray shapes, case analysis |
| C28 | Heat | exponentials; derivative |
| C29 | Wave | arccos/cos identities; parameter lists |
| C30 | Expwin, Rectangular | limits of exp(-a/x), case analysis |
| C31 | compute_log_scales, MexicanHat, Abspline | logarithmic spacing; cubic spline system |
| C32 | symmetrize | entrywise |
| C33 | distanz | Cauchy-Schwarz (triangle inequality) |
| C34 | resistance_distance | potential theory: pinv contract, Schur complement, Foster |
| C35 | kron_reduction | Schur complement of a Laplacian, maximum principle |
| C36 | interpolate | Green's function under the solver contract |
| C37 | pyramid_analysis/synthesis | induction on levels |
| C38 | graph_multiresolution | invariant over levels with eigenvector oracles |
| C39 | regression_tikhonov tau > 0 | convex quadratic, maximum principle for the range |
| C40 | regression_tikhonov tau = 0 | Dirichlet principle |
| C41 | classification_tikhonov | columns sum to one |
| C42 | proj_simplex with bisection | variational inequality, convergence of the bisection |
| C43 | objective, gradient, step | descent lemma, fixed points, O(1/k) rate |
| C44-C48 | deterministic generators | index lists, arithmetic modulo N |
| C49 | LineGraph | incidence counting |
| C50-C55 | random generators | loop invariants for all oracle answers |
| C56 | NNGraph | metric facts for all answers consistent with the query contract |
| C57 | _break_signals, _join_signals | string and list induction |
| C58-C59 | networkx, graph-tool | dictionaries of edges; round trips |
| C60 | save/load dispatch | string suffixes |
| C61 | set_coordinates, spring layout | bounded moves, rescaling |
| C62 | features | exact filtering lemmas |
| C63 | cheby_rect, jackson | cosine series |
| C64 | lanczos for one and for several start vectors | Krylov invariant (orthonormal columns, tridiagonal H); several start vectors: simulation by the runs of each alone while their supports are separate, explicit runs for the findings |
| C65 | set_signal | histories |
| C66 | in-place effects on CSR arrays, q, angles, points | memory model of the scipy loops |
| C67 | plotting normalisation | affine maps, case analysis |
| C68 | Gabor, Modulation | eigenbasis sums |
| C69 | graph_sparsify | counts of draws, conservation of total resistance, expectation |
| C70 | Filter construction and operators, with the container the kernels come in | list algebra, C26 |
| C71 | rescale_center | affine maps |
| C72 | kernel of L | connectedness + sum of squares |
| C73 | Python's argument binding and the super().__init__ calls of all 29 classes (PyCall) | induction on the chain of constructors, table checked by computation |
| C74 | the first wrong call or unbound name of tree_multiresolution, prox_tv, lanczos_op; the code behind it is an arbitrary continuation | reduction |
| C75 | the uniform draws are an argument; the length of np.mgrid is computed in double precision (stdlib SpecFloat) | C56 + cell arithmetic; the finding by evaluating SpecFloat |
| C76 | the stream of uniform draws / the normal draws are arguments | C56 + case analysis on faces; normalisation |
| C77 | a seed is a function from sizes to draws, no seed gives a fresh draw per generator; the file is an argument | C56, sin^2+cos^2=1 |
| C78 | draws are arguments; distances via distanz, coordinates via rescale_center | C33, C71, exp/ln monotonicity |
| C79 | np.pad(symmetric) as reflection modulo 2h, view_as_windows and reshape as index arithmetic | division arithmetic, C46, C56 |
| C80 | the kernels of the filter-bank models (Model/Kernels.v) as real functions | continuity lemmas; pieces glued where they meet (`cont_glue`) |
| C81 | DataGraphs: file content as arguments; Data/*: the actual edge lists over N | counting, reachability; boolean checkers proved sound (DataFacts) and run by vm_compute on the actual lists |
| C82 | Base/Spectral: the spectral theorem itself, by minimising the quadratic form on unit spheres (cluster points by completeness, no choice); then Cache, Filter, Traverse | Courant-Fischer for uniqueness; U diag(h) U^T invariance; kernel dimension = number of classes (SpectrumFacts) |
| C83 | Generators (Path, Ring, Grid2d, Torus) with any exact eigensolver answer | explicit orthonormal cosine/Fourier bases (telescoping sums), uniqueness of sorted spectra and of simple eigenvectors, energy over eigenspaces independent of the basis; Cartesian products of graphs give Kronecker products of eigenbases (Props/TransformProps) |
| C84 | Repr: every `_get_extra_repr`, `Graph.__repr__`, `Filter.__repr__`, the default title, the attributes each constructor leaves; float printing is an argument | string induction for the loop and the cut; case analysis over the classes (Props/ReprProps) |
| C85 | Filter: gfilter with the Chebyshev method, localize; hop distance in Spec/HopSpec | induction on the Chebyshev recurrence with the sparsity of L; a matrix commuting with L commutes with functions of L, for components (Props/LocalityProps) |
| C86 | Kernels: Heat, with gfilter Exact, on a combinatorial Laplacian | exp(-tau L) as a limit of powers of the non-negative matrix d I - L, constants are preserved, spectral gap (Props/HeatProps) |
| C87 | Learning: regression_tikhonov (solver contract cg_ok), Filter: gfilter Exact | the normal equations diagonalised in the Fourier basis; optimality of both solutions for the trade-off; maximum principle for the order (Props/DenoiseProps) |
| C88 | Graph: Laplacian of two graphs; Utils: resistance_distance; Kernels: Heat | Weyl-type dimension argument with extra linear conditions, Dirichlet principle, uniqueness of the spectrum (Props/MonotoneProps) |
| C89 | figures and drawings | invariant over histories of the screen; case analysis of the drawing code (Model/Figures.v) |
| C90 | life of a graph object | state machine with lazily computed attributes and in-place writes (Model/Live.v); invariant and frame lemmas over histories |
| C91 | when the spectral bound is exact | explicit eigenvectors for the equality cases; equality analysis of the two energy inequalities (L <= 2D) for the converse, a path argument for connected graphs |
| C92 | what rounding changes and what it cannot | sums as binary trees of rounded additions, any rounding with the properties of Spec/Rounding.v; induction on the tree for the error, Weyl's inequality for the eigenvalues; double precision is an instance by Flocq's FLT format; explicit path for the findings; the normalized Laplacian by composing relative errors, sum p_ij |x_i| |x_j| <= |x|^2 (the exact Laplacian is positive) for the quadratic form; roundings of explicit numbers evaluated with Flocq for its two findings |
| C93 | filtering and transforms are stable | in the exact eigenbasis V the error has entries (V^T U)_ik (g(e_k) - g(mu_i)), bounded entrywise by K times those of V^T (L U - U diag(e)); Weyl's inequality for the eigenvalues; explicit pair of graphs for Rectangular |
| C94 | spectra of full graphs, stars, regular and bipartite graphs | every eigenpair is solved by hand from the explicit Laplacian, the multiplicities follow from simplicity of 0, the trace and sortedness; regular: L_norm = L/d entrywise; bipartite: conjugation by the signs of the sides sends L to 2 - L |
| C95 | analysis followed by synthesis | the result of the analysis, squeezed, is again an input of the shape dispatch (resqueeze); composition of spectral multipliers, then a pointwise bound on 1 - 2t/(A+B) for A <= t <= B |
| C96 | adjacency matrices of Boolean or machine-integer type | additions in the type of the elements modelled on Z with wrap-around (Dtypes.v), sums and divisions exact; agreement with the real-weight model when nothing overflows, exact row sums otherwise |
| C97 | filter banks over the life of their graph | kernels as programs that read G.lmax / G.e of graph objects in a memory of Cache.v states (LiveBanks.v); running them in any memory equals the pure bank for the value read; findings by a concrete graph whose Laplacian type changes. An lmax that is not a finite number is outside the model (result None) |
| C98 | regression_tikhonov and classification_tikhonov as weighted averages | both linear systems as one operator; column i of the weights is its answer to a single 1 at vertex i, so existence, positivity, sum 1 and stability come from the maximum principle, uniqueness and linearity; zero weights by restricting a solution to the vertices that have a path (decided by the model's own traversal) |
| C99 | coherence and what it bounds | the cache machine of C15/C16 says which basis the number belongs to; orthonormal expansions give the bounds, Cauchy-Schwarz the uncertainty principle; the constant first column bounds the others on connected graphs; star and path from C94/C83 |
| C100 | smoothness order of the basis, truncation, ideal low-pass filter, eigenmap layouts | expansion in the eigenbasis for the single columns; Bessel and a rearrangement argument (Ky Fan) for families, with the constant signal added for layouts; truncation and Rectangular as spectral multipliers between 0 and 1 |
| C101 | symmetries: filters, localization, transforms, predictions; ring/torus convolution; separable heat | a symmetry turns one exact eigenbasis into another, and functions of the Laplacian do not depend on the basis (C82); predictions by uniqueness of the minimizer; convolution by moving the impulse at 0; separability from the Kronecker eigenbasis (C83) and exp(a+b) = exp(a)exp(b) |
| C102 | spectral attributes after in-place writes | one state machine for the whole object (Model/LiveSpectral.v: Live.v plus _lmax, _lmax_method, _e, _U, _coherence, _D, with bounds and D computed from the remembered dw, is_directed, n_edges); projections onto the machines of C90 and C15/C16 are simulations; frame lemmas over histories; findings by a concrete edge |
| C103 | cuts against eigenvalues, Cheeger sweep, connected gap, diameter | cut and mass in Spec/CutSpec.v; bounds by the quadratic form of the centred indicator; sweep by the discrete coarea formula, Cauchy-Schwarz and a median shift; diameter because the product of (L - mu) over the distinct eigenvalues is 0 whereas its entry at distance m is a signed sum of products of non-positive entries |
| C104 | spectra and filters of subgraphs, Kron reductions and components | interlacing by counting linear conditions (PartProps `lower`, `upper`); energies of restricted signals from C07/C35; eigenvectors of a closed part extend by zero; traces of functions of L give the multiset of eigenvalues |
| C105 | sides of the second mode are connected (Fiedler) | two separated non-negative sides would give a combination orthogonal to the kernel with energy at most e[1], hence an eigenvector, whose positive vertices on one side form a closed set; transported to subgraph and is_connected by C05, C07 |
| C106 | recovery of smooth signals from samples by regression_tikhonov | Spec/SampSpec.v (agree, sampling_constant, bandlimited); the result is harmonic off the labels, hence orthogonal in energy to the error; stability constants from the spectral theorem for M + tau L and its trivial kernel; explicit constants from the edge form of the energy; limits by counting linear conditions |
| C107 | compositions and round trips of subgraph, extract_components, the constructor | equality of the whole model record: stored rows are sorted and free of zeros, so weights determine them; signals copied in order (names are distinct); sums over components by permuting the vertices into the concatenated parts and joining one edge list per part |
| C108 | Helmholtz decomposition of edge signals by grad and div | Spec/FlowSpec.v (inner, adds_up, distance2); L = D D^T: L x = D y solved through the spectral theorem since D y is orthogonal to the kernel; orthogonality from the adjointness of C13; circulations counted by linear conditions, the kernel of a connected graph being the constants |
| C109 | variational, combinatorial and spectral meaning of resistance_distance | potentials of unit currents (C34); Dirichlet's principle from positive semi-definiteness, Thomson's from the decomposition of C108; bridges by the orthogonality of gradients and circulations; spectral formula by expanding the unit current in the Fourier basis; explicit potentials for paths and complete graphs |
| C110 | extreme eigenvalues against degrees, independent sets, colourings, separators, edges between sets | signals of mean zero have no component on mode 0 when e[1] > 0, hence e[1] and e[-1] bound their energy; indicator and two-valued test signals; mixing by Cauchy-Schwarz on Fourier coefficients; stars and full graphs attain the bounds |
| C111 | predictions of regression_tikhonov on a Kron reduction that keeps the labels, and on an isolated part | any solution on the part, extended harmonically (reduction) or by the whole graph's own solution (part), solves the whole graph's system; solutions are unique when every vertex reaches a label |
| C112 | dependence of regression_tikhonov on tau, limits at 0 and at infinity | the difference of two predictions is the prediction of measurements proportional to L x, hence the maximum principle bounds it; Poincare inequality with e[1] and the equation summed over the vertices for large tau |
| C113 | regression_tikhonov with more, fewer or one label less | a prediction solves the system of every larger mask that carries its values; the difference of two predictions is a multiple of the prediction of a unit measurement; uniqueness |
| C114 | classification_tikhonov on renamed or merged classes, against regression_tikhonov on an indicator, sure and impossible classes | from the averaging weights of C98, exchanging the sums over classes and labels |
| C115 | classification_tikhonov_simplex (objective, projected-gradient iteration of pyunlocbox with and without acceleration) against classification_tikhonov | at the logits the gradient vanishes, and the objective exceeds its value there by at least nu times the squared distance (the constant of C106); combined with the descent inequality of C43 |

Not expressible in the model: rendering (plotting backends), byte formats of graphml/gml/gexf, floating-point error
(except in the weights and the two Laplacians, C92, without overflow, and in the check of the constructor, C01),
running time and memory.

## 6 Disagreements between code and documentation

Each `_refuted` theorem is a finding about the unchanged code; the property text in properties.jsonl states what holds
instead. They are listed under their property in MANIFEST.json.

## 7 Checks

* `vcheck` (clean rebuild, coqchk, scan for forbidden commands).
* tools/assumptions.py: `Print Assumptions` for every theorem.
* seeded/LOG.jsonl: mutations of the model, the theorems that failed, and what was tightened.
