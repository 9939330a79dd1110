import json
P=[]
def p(id,title,st,q,why,anchors): P.append(dict(id=id,title=title,statement=st,quantifier=q,why_tests_cant=why,anchors=anchors))
G="pygsp/graphs/graph.py"
p("C01","Graph construction accepts exactly finite square matrices and preserves them","Graph(adjacency) with a valid lap_type succeeds iff the adjacency is two-dimensional, square and every entry is finite (no NaN, no infinity); on success n_vertices is the number of rows, W[i,j] equals the input entry for all i,j, and W stores no explicit zero. In floating point the check is made on the sum of the entries: whatever the order of the additions, NaN and infinities are still rejected, and matrices whose entries are not so large that the sum overflows are accepted; matrices of finite numbers whose sum overflows are rejected.","every dense array of any shape and every sparse (CSR/COO, with duplicates and explicit zeros) input","the set of shapes and entries is infinite; NaN/inf can be anywhere and may cancel in the sum that the code tests",[G+":Graph.__init__"])
p("C02","n_edges counts the edges","For an undirected graph n_edges is the number of unordered pairs i<=j with W[i,j]!=0 (a self-loop counts once); for a directed graph it is the number of ordered pairs with W[i,j]!=0.","every accepted adjacency matrix, whatever its storage (duplicates, unsorted indices, explicit zeros)","integer halving of a stored-entry count is only right because of symmetry; must hold for all sparsity patterns",[G+":Graph.__init__"])
p("C03","is_directed, has_loops, is_weighted decide what they say","is_directed() is True iff W is not symmetric; has_loops() iff some diagonal entry is nonzero; is_weighted() is False iff every nonzero entry is one; the answers do not depend on call history.","every accepted adjacency matrix","universally quantified over matrices",[G+":Graph.is_directed",G+":Graph.has_loops",G+":Graph.is_weighted"])
p("C04","get_edge_list enumerates every edge exactly once","get_edge_list() never fails its internal assertion, has length n_edges, lists each edge exactly once with its weight W[i,j] (i<=j if undirected), the list is sorted by source then target, and W can be rebuilt from it.","every accepted adjacency matrix, whatever its storage (duplicates, unsorted indices, explicit zeros)","an assertion that never fires and a bijection with edges are statements about all graphs",[G+":Graph.get_edge_list"])
p("C05","is_connected decides (strong) connectivity whatever the traversal order","is_connected() terminates and returns True iff there is a directed path between every ordered pair of vertices; the result is the same for every order in which set.pop() yields vertices.","every graph with at least one vertex, every pop order","hash-order nondeterminism and graph-size dependent loops",[G+":Graph.is_connected"])
p("C06","extract_components partitions the vertices into connected components","For undirected graphs the components returned are non-empty, sorted, pairwise disjoint, cover all vertices, and two vertices are in the same component iff a path of positive-weight edges joins them; orig_idx tells which vertices; directed graphs are rejected. Finding: with negative weights it disagrees with is_connected().","every undirected graph, every pop order","quantifies over graphs and over nondeterministic traversal",[G+":Graph.extract_components"])
p("C07","subgraph restricts weights, signals, coordinates and Laplacian type","subgraph(vertices) has adjacency W[v_a,v_b] in the requested order, keeps lap_type, restricts every signal and the coordinates to the chosen vertices, and an indicator (boolean mask) selects the same as the index list.","every graph, every index list or mask","all index lists, including repeats and empty ones",[G+":Graph.subgraph"])
p("C08","Degrees","d[i] is the average of the number of nonzeros in row i and column i, dw[i] the average of row and column sums of W; for undirected graphs these are the row counts/sums; the degrees sum to twice the edges minus the self-loops (undirected).","every accepted adjacency matrix","universal identity over matrices",[G+":Graph.d",G+":Graph.dw"])
p("C09","Combinatorial Laplacian","The combinatorial Laplacian L is symmetric, every row sums to zero, off-diagonal entries are -(W[i,j]+W[j,i])/2, self-loops do not change it, and it is positive semidefinite when weights are non-negative.","every graph, directed or not, every signal","quadratic-form positivity over all signals",[G+":Graph.compute_laplacian"])
p("C10","Dirichlet energy","dirichlet_energy(x) equals 1/2 sum_ij W[i,j](x_j-x_i)^2 for the combinatorial Laplacian and 1/2 sum_ij W[i,j](x_j/sqrt(d_j)-x_i/sqrt(d_i))^2 for the normalized one (non-negative weights); it rejects signals of wrong length. Finding: the documented normalized formula (division by d rather than sqrt d) is false.","every graph and signal","identity over all signals and matrices",[G+":Graph.dirichlet_energy"])
p("C11","Normalized Laplacian","The normalized Laplacian is symmetric, has diagonal 1-W[i,i]/d_i for connected vertices and a zero row for isolated ones, is positive semidefinite, sqrt(d) spans its kernel directions, and all its eigenvalues are in [0,2] for non-negative weights.","every graph with non-negative weights, every eigenpair","spectral bound over all graphs",[G+":Graph.compute_laplacian",G+":Graph._get_upper_bound"])
p("C12","The differential operator factorises the Laplacian","L = D D^T for the combinatorial and normalized Laplacian, directed and undirected graphs, with or without self-loops (non-negative weights).","every graph with non-negative weights","matrix identity over all graphs",["pygsp/graphs/difference.py:compute_differential_operator"])
p("C13","Gradient and divergence","grad(x)[k] is sqrt(w)(x_t - x_s) (documented scaling per Laplacian type and directedness), div is the adjoint of grad, div(grad(x)) = L x, the squared norm of grad(x) is the Dirichlet energy, and wrong lengths are rejected.","every graph, vertex signal and edge signal","identities over all signals",["pygsp/graphs/difference.py:grad","pygsp/graphs/difference.py:div"])
p("C14","The spectral upper bound is an upper bound","For non-negative weights every eigenvalue of L is at most the value of estimate_lmax('bounds') (all four combinatorial bounds, and 2 for the normalized Laplacian), including graphs with isolated vertices where one bound is 0/0. With negative weights it can fail.","every graph with non-negative weights, every eigenpair","spectral theorem-like statement over all graphs",[G+":Graph._get_upper_bound",G+":Graph.estimate_lmax"])
p("C15","Spectral-bound cache over call histories","After any sequence of compute_laplacian / estimate_lmax / compute_fourier_basis / lmax reads, reading G.lmax yields a number that was computed for the current Laplacian. Finding: false — after switching the Laplacian type the stale method tag makes lmax None; also a failed estimate_lmax is remembered as done.","all call histories, all eigensolver outcomes","histories are unbounded",[G+":Graph.lmax",G+":Graph.estimate_lmax",G+":Graph.compute_laplacian","pygsp/graphs/fourier.py:compute_fourier_basis"])
p("C16","Fourier basis, Laplacian and differential operator caches are coherent","After any sequence of calls with valid arguments, L is the Laplacian of the current type, and cached U, e, coherence, D were computed from the current L and type; requesting n eigenvectors leaves at least n available; the values that reading U, e or coherence returns, at any point of any history, are those of the current Laplacian. Finding: compute_laplacian with an invalid type raises but leaves lap_type changed and L not.","all call histories","histories are unbounded; includes exceptions",[G+":Graph.compute_laplacian","pygsp/graphs/fourier.py","pygsp/graphs/difference.py"])
p("C17","Graph Fourier transform","With a full basis, igft(gft(s)) = s and gft(igft(s)) = s, inner products are preserved (Parseval), both maps are linear, gft(L s) = e * gft(s), and the Dirichlet energy is sum e_l |s_hat_l|^2. With a partial basis igft(gft(s)) is rejected.","every graph whose eigensolver meets its contract, every signal","identities over all signals",["pygsp/graphs/fourier.py:gft","pygsp/graphs/fourier.py:igft"])
p("C18","Coherence range","The coherence of a full Fourier basis lies in [1/sqrt(N), 1]; at any point of any history the number read is the largest absolute entry of the basis of the current Laplacian.","every orthonormal basis","inequality over all bases",["pygsp/graphs/fourier.py:coherence"])
F="pygsp/filters/filter.py"
p("C19","Exact filtering is a function of the Laplacian","filter(s, method='exact') applies U g(e) U^T per filter: linear, commutes with L, scales eigenvectors by the kernel, composition multiplies kernels, energy of the response bounded by the kernel's extreme values.","every graph, kernel list and signal","operators over all signals",[F+":Filter.filter"])
p("C20","Chebyshev filtering","cheby_op(c, s) equals c0/2 s + sum_k c_k T_k((L-a2)/a1) s for every order and number of scales; compute_cheby_coeff makes it exact: for a polynomial kernel of degree <= order, method='chebyshev' equals method='exact'; an order below 1 is rejected. For any other kernel the two methods differ in norm by at most (2 order + 2) E |s|, where E is the error on [0, lmax] of any polynomial of degree <= order; for the heat kernels the difference is at most 2 (scale/2)^(order+1)/order! |s| (1e-10 |s| with the defaults), for 1/(b + a x) it decreases geometrically.","every order, kernel, Laplacian and signal","polynomial identities and discrete orthogonality for all orders",["pygsp/filters/approximations.py:cheby_op","pygsp/filters/approximations.py:compute_cheby_coeff"])
p("C21","Synthesis is the adjoint of analysis","<filter(s), c> = <s, filter(c)> for s of shape (N,) and c of shape (N, Nf), for both the exact and the Chebyshev method.","every filter bank and signals","identity over all signals",[F+":Filter.filter"])
p("C22","Frame bounds","(A,B)=estimate_frame_bounds(G.e) satisfy A|x|^2 <= |g(L)x|^2 <= B|x|^2 for every x and are attained. With the default 1000 samples of [0,lmax] they are frame bounds exactly when the sum of squares is monotone, up to K lmax/1998 when it is K-Lipschitz; for an indicator filter they can be wrong (B = 0 for a filter that keeps an eigenvector).","every filter bank and signal","optimal inequality over all signals",[F+":Filter.estimate_frame_bounds"])
p("C23","Advertised tight frames are tight","Meyer, SimpleTight, Itersine (even overlap), HalfCosine, Held, Simoncelli, Papadakis and Regular satisfy sum_i g_i(x)^2 = constant for every x in [0,lmax]. Finding: Itersine with odd overlap is not tight.","every number of filters, every frequency in [0,lmax], every lmax>0","continuum of frequencies; boundaries between pieces",["pygsp/filters/meyer.py","pygsp/filters/simpletight.py","pygsp/filters/itersine.py","pygsp/filters/halfcosine.py","pygsp/filters/held.py","pygsp/filters/simoncelli.py","pygsp/filters/papadakis.py","pygsp/filters/regular.py"])
p("C24","complement completes to a tight frame","g + g.complement(B) has sum of squares B at every evaluated frequency and infeasible bounds are rejected. Finding: with frame_bound=None the kernel depends on the batch of frequencies it is evaluated on, so it is not a function of the frequency.","every filter bank, bound and batch of frequencies","all batches",[F+":Filter.complement"])
p("C25","inverse reconstructs","If at every eigenvalue some filter is nonzero, g.inverse().filter(g.filter(s)) = s (exact method); otherwise the result is the orthogonal projection on the covered eigenspaces.","every filter bank and signal","all kernels and signals",[F+":Filter.inverse"])
p("C26","localize and compute_frame","localize(i) = sqrt(N) g(L) delta_i, atoms are symmetric (localize(i)[j]=localize(j)[i]); compute_frame() stacks g_f(L) so frame @ s is the analysis of s. Finding: when the number of filters equals the number of vertices compute_frame takes the synthesis branch and is wrong.","every filter bank, graph, vertex","all sizes, including the coincidence Nf = N",[F+":Filter.localize",F+":Filter.compute_frame"])
p("C27","Shape dispatch of filter","For 1-D, 2-D and 3-D signals filter() returns an array with the documented shape (N, n_signals, n_features) squeezed, rejects wrong first dimension, more than three dimensions, and third dimensions other than 1 or Nf.","every shape, every number of filters","all shape combinations",[F+":Filter.filter"])
p("C28","Heat kernel","Heat kernels are in (0,1], equal 1 at 0, decrease with frequency, satisfy the semigroup law h_{s+t}=h_s h_t, and normalize=True gives unit norm over the spectrum.","every scale >= 0 and frequency","continuum",["pygsp/filters/heat.py"])
p("C29","Wave kernel","Wave kernels satisfy the discrete wave equation g_{t+1}+g_{t-1} = 2(1-speed^2 x/(2 lmax)) g_t, start at 1, are bounded by 1; scalar and list parameters broadcast and incompatible lengths or speeds >= 2 are rejected (as written, a one-element ndarray is multiplied rather than broadcast, and speeds below -2 are accepted).","every time, speed in [0,2), frequency","continuum",["pygsp/filters/wave.py"])
p("C30","Expwin and Rectangular","Rectangular is the indicator of the band; Expwin is in [0,1], equals 1 well inside and 0 well outside the band, is 1/2 at the edges, and low-pass plus high-pass at the same edge sum to 1.","every band, slope > 0, frequency","continuum",["pygsp/filters/expwin.py","pygsp/filters/rectangular.py"])
p("C31","Wavelet scales and kernels","compute_log_scales returns a decreasing geometric sequence from t2/lmin to t1/lmax; MexicanHat kernels vanish at 0 (band-pass) ; the Abspline kernel is continuous with continuous derivative at both knots.","every lmin<lmax, number of scales","continuum",["pygsp/utils.py:compute_log_scales","pygsp/filters/mexicanhat.py","pygsp/filters/abspline.py"])
p("C32","symmetrize","symmetrize returns a symmetric matrix for every method, leaves symmetric matrices unchanged (average, maximum, fill), computes the entrywise average/maximum, the sparse and dense implementations agree, and tril/triu mirror the chosen triangle for non-negative entries; unknown methods and non-square inputs are rejected. Finding: tril/triu drop negative weights.","every square matrix and method","all matrices",["pygsp/utils.py:symmetrize"])
p("C33","distanz is the Euclidean distance matrix","distanz(x,y)[i,j] is the Euclidean distance between column i of x and column j of y; distanz(x) is symmetric, zero on the diagonal, and satisfies the triangle inequality; mismatched dimensions are rejected.","every pair of point sets","all point sets",["pygsp/utils.py:distanz"])
p("C34","Resistance distance","resistance_distance is symmetric, zero on the diagonal, non-negative, satisfies the triangle inequality on connected graphs, and equals the potential difference caused by a unit current; summed over the edges, weight times resistance is N-1 (Foster).","every connected graph with non-negative weights","metric axioms over all graphs",["pygsp/utils.py:resistance_distance"])
p("C35","Kron reduction","kron_reduction(L, ind) is the Schur complement: symmetric, keeps zero row sums, non-positive off-diagonals and positive semidefiniteness, and its quadratic form is the minimum of the Dirichlet energy over the eliminated vertices; reducing in two steps equals reducing at once; the reduced Graph has that Laplacian.","every Laplacian and index set with solvable complement","all graphs",["pygsp/reduction.py:kron_reduction"])
p("C36","interpolate interpolates","With the Green kernel applied exactly, interpolate(G, f, keep) returns a signal equal to f on the kept vertices, and (L+eps I) of it vanishes on the others; the system solved inside is solvable for every selection. Finding: the graph must carry the mr bookkeeping of a reduction.","every graph, subset and signal","all signals",["pygsp/reduction.py:interpolate"])
p("C37","Pyramid perfect reconstruction","pyramid_synthesis(Gs, ca[-1], pe) reconstructs f exactly when the same interpolation parameters are used, for any number of levels and any filters. With the exact method each approximation is the filtered previous one on the kept vertices, and each error is the previous approximation minus the interpolation of the new one (its values on the kept vertices, annihilated by L + 0.005 I elsewhere); of a signal with several columns only the first is kept in the approximations. Finding: the default orders differ (100 vs 30), so the defaults do not use the same interpolation and reconstruction fails; a one-dimensional signal is rejected; the least_squares option cannot run; the number of prediction errors is not checked (the ValueError is built but not raised): surplus ones are ignored and a missing one is an IndexError; a wrong number of filters is rejected.","every multiresolution, signal, filter list","all depths",["pygsp/reduction.py:pyramid_analysis","pygsp/reduction.py:pyramid_synthesis"])
p("C38","Multiresolution","graph_multiresolution(levels) returns levels+1 graphs; each step keeps the vertices where the eigenvector has the sign of its first entry; mr['orig_idx'] is an increasing map to original vertices which composes the idx maps, and each level has as many vertices as kept indices. Without sparsification every level of a connected graph is connected, undirected, loop-free, drawn at the original coordinates; its Laplacian is that of one Kron reduction of the original graph onto orig_idx and effective resistances are those of the original graph; sizes strictly decrease when the eigenvector is not constant and its first entry is not zero; K_reg inverts the restricted regularised inverse. Defects: a level reduced to one vertex is a ValueError; two vertices without the full basis a TypeError; with sparsification a next level of three or four vertices is a ValueError and a second level is an AttributeError (no coordinates); the last column of the caller's cached U is rewritten, with zeros if its first entry is zero; a partial cached basis is used as if complete.","every graph, number of levels, eigenvector and solver answers","all depths; all eigenvectors",["pygsp/reduction.py:graph_multiresolution","pygsp/reduction.py:kron_reduction"])
L="pygsp/learning.py"
p("C39","Tikhonov regression, tau > 0","The returned x is the unique minimiser of |M x - y|^2 + tau x^T L x whenever every component has a labelled vertex (solver contract assumed), and is a minimiser in any case.","every graph, mask, measurements","optimality over all candidates",[L+":regression_tikhonov"])
p("C40","Tikhonov regression, tau = 0","The returned x agrees with y on labelled vertices, minimises x^T L x among such signals, is harmonic elsewhere and stays within the range of the labels (maximum principle). Findings: a measurement matrix with one column is rejected unless exactly one vertex is unlabelled; with an integer array the solution is truncated, so it is neither harmonic nor optimal.","every graph, mask, measurements","optimality over all candidates",[L+":regression_tikhonov"])
p("C41","Tikhonov classification","The logits of classification_tikhonov sum to one on every vertex and lie in [0,1], and with tau=0 labelled vertices keep their one-hot label. Finding: with tau=0, labels of class 0 only are rejected.","every graph, labels, mask","all graphs",[L+":classification_tikhonov"])
p("C42","Simplex projection","The projection used by classification_tikhonov_simplex returns, for every row, the unique closest point of the probability simplex; the bisection terminates.","every matrix of real rows with at least one column","optimality over the whole simplex",[L+":classification_tikhonov_simplex"])
p("C43","Gradient and step of the simplex solver","The gradient given to the solver is the gradient of the objective, and the step is at most the inverse Lipschitz constant so that each forward-backward step lands on the simplex and decreases the objective, fixed points are global minimisers, and the objective converges to its minimum at rate 1/k, or 1/k^2 with the acceleration (FISTA) that pyunlocbox uses by default; tau <= 0 is rejected.","every graph, iterate","all iterates",[L+":classification_tikhonov_simplex"])
p("C44","Path","Path(N) has W[i,j]=1 iff |i-j|=1, N-1 edges, is undirected, loop-free and connected; the directed variant has only forward edges.","every N >= 1","all sizes",["pygsp/graphs/path.py"])
p("C45","Ring","Ring(N,k) for 2k<N connects exactly vertices at circular distance 1..k with unit weight, is undirected and 2k-regular; N<3 and 2k>N are rejected. Finding: for 2k=N the constructed graph is not the complete circulant graph (it is directed, has a self-loop).","every N >= 3, k","all sizes",["pygsp/graphs/ring.py"])
p("C46","Grid2d","Grid2d(N1,N2) connects exactly horizontal/vertical neighbours (and diagonal ones with weight `diagonal`), has N1(N2-1)+N2(N1-1) edges without diagonals, is undirected and connected. Findings: N2=1 with N1>1 is rejected by the sparse constructor; a negative diagonal weight is silently replaced by 0.","every N1, N2, diagonal","all sizes",["pygsp/graphs/grid2d.py"])
p("C47","Torus","Torus(Nv,Mv) with both >= 3 is the 4-regular torus grid with unit weights, undirected. Finding: with a side of one or two vertices the graph is not 4-regular.","every Nv, Mv","all sizes",["pygsp/graphs/torus.py"])
p("C48","Comet, Star, FullConnected","Comet(N,k) is a tree with N-1 edges, centre degree k, connected; Star(N) is Comet(N,N-1); FullConnected(N) has all N(N-1)/2 edges; k>N-1 rejected.","every N, k","all sizes",["pygsp/graphs/comet.py","pygsp/graphs/star.py","pygsp/graphs/fullconnected.py"])
p("C49","LineGraph","Vertices of the line graph are the edges of the graph, and two different edges are adjacent iff they share an endpoint; coordinates are edge midpoints. Finding: a self-loop yields weight -1 on the diagonal.","every graph","all graphs",["pygsp/graphs/linegraph.py"])
p("C50","Stochastic block model","For every random stream: undirected unless directed=True, no self-loop unless requested, edges only where the block probability is positive and always where it is one, connected=True returns the graph of the first of the n_try attempts that is connected, and raises ValueError exactly when none of them is; probabilities outside [0,1] are rejected. Findings: n_try=0 without the connectivity requirement fails with an unrelated error (the matrix is never built); an integer array q truncates p on its diagonal.","every parameter set and random stream","all random outcomes",["pygsp/graphs/stochasticblockmodel.py","pygsp/graphs/erdosrenyi.py"])
p("C51","Barabasi-Albert","For every random stream: undirected, loop-free, each of the N-m0 added vertices brings exactly m edges to earlier vertices, m(N-m0) edges in total; m>m0 rejected.","every N, m0, m and random stream","all random outcomes",["pygsp/graphs/barabasialbert.py"])
p("C52","Random regular graph","For every random stream: the result is undirected, simple, every degree is at most k, and every degree is k when the construction ends before the iteration limit; odd N*k and N = 0 rejected. The final check is silent exactly when adjacency is symmetric, degrees are equal and there is no loop, and a finished construction is never reported. Findings: the check cannot see parallel edges and never looks at k, so that with max_iter = 1 an edgeless graph is returned without a word; after a restart the half-edges are floats, so that a scipy rejecting float indices raises; an edge accepted at the N*k-th test disarms the restart and the constructor can loop for ever.","every N, k and random stream","all random outcomes",["pygsp/graphs/randomregular.py"])
p("C53","Random ring","For strictly increasing angles in [0,2pi) the graph is a cycle with weights inversely proportional to arc lengths, the internal assertion holds; too few or out-of-range angles are rejected. Finding: two coinciding angles make the internal assertion fail.","every list of angles","all angle lists",["pygsp/graphs/randomring.py"])
p("C54","LowStretchTree","LowStretchTree(k) has 4^k vertices placed bijectively on the 2^k x 2^k integer grid, and contains in at least one direction every edge of a spanning tree of unit-length grid edges. Finding: because of a wrong index it is neither undirected nor loop-free nor connected nor a tree for any k, and reports 2(4^k-1) edges.","every k >= 1","all sizes",["pygsp/graphs/lowstretchtree.py"])
p("C55","Community","For every random stream: community labels are sorted, every label is used, sizes respect min_comm or are exactly those asked for; the graph has unit weights, is undirected and loop-free; the number of edges between different communities is the floor of world_density times the number of such pairs; with comm_density every community of s vertices gets floor(d s(s-1)/2) edges; otherwise two vertices of one community are joined iff they lie within epsilon. Admissible parameters succeed (below density 0.35: if every pair is eventually drawn), the default parameters (sqrt(N) / 2 and N / (3 Nc) rounded to the nearest integer, the even one on a tie) are admissible for every N >= 2; every vertex is placed in the disc of radius sqrt(size of its community) around the centre of its community, the centres lying on a circle of radius comm_ratio sqrt(N); bad parameters are rejected. Findings: with k_neigh no intra-community edge is ever built; asking for an empty community is an IndexError.","every parameter set and random stream","all random outcomes",["pygsp/graphs/community.py"])
p("C56","Nearest-neighbour graphs","NNGraph is undirected; with a positive (or default) width its weights lie in [0,1] and are exp(-dist^2/sigma) on recorded neighbours, combined by the symmetrization; the default width is the mean recorded distance. Radius graphs have no self-loop and join exactly the points within epsilon; knn graphs of distinct points have no self-loop and join every vertex to k others none farther than one left out. The distances are the documented ones (Euclidean, Manhattan, maximum, Minkowski), zero exactly between coinciding points. Centring gives zero-mean coordinates, rescaling fixes the bounding radius, and with both the graph is invariant under translation and enlargement of the points. Bad parameters are rejected. Findings: knn graphs can get self-loops when points coincide; radius graphs are rejected when the unused k (default 10) is at least the number of points.","every point set and neighbour query satisfying its contract","all point sets",["pygsp/graphs/nngraphs/nngraph.py"])
p("C57","Breaking and joining signals round-trips","Exporting a graph replaces each 2-D signal by its columns name_0, name_1, ...; importing joins them again. Every dictionary of signals whose 2-D ones have 2 to 10 columns and whose names cannot be confused is restored exactly; with more columns it is restored up to the alphabetical order of the column names. Findings: with eleven columns or more the columns come back permuted; a 1-column signal comes back as a 1-D one under another name and one without column disappears; unrelated 1-D signals whose names share what precedes the last underscore are merged, a signal a is destroyed by a signal a_0, some sets of names make loading fail.","every signal dictionary","all widths and names",["pygsp/graphs/_io.py:_break_signals","pygsp/graphs/_io.py:_join_signals"])
p("C58","NetworkX round-trip","to_networkx exports the vertices in order, exactly the edges with their weights, and the signals as vertex attributes; from_networkx gives one vertex per node, the weight of the edge between two nodes, NaN where a node lacks an attribute; composing the two restores number of vertices, weights (directed or not, isolated vertices and self-loops included) and signals. Findings: the export leaves the signals of the exported graph broken into columns; the type of the Laplacian and the coordinates are not restored; a signal of more than two dimensions, or written into the dictionary with too few values, makes the export fail; a graph without vertex cannot be imported.","every graph, signal dictionary, NetworkX graph","all graphs",["pygsp/graphs/_io.py:to_networkx","pygsp/graphs/_io.py:from_networkx"])
p("C59","graph-tool export and import","to_graphtool keeps every edge and weight; from_graphtool adds parallel edges up; composing the two restores weights and signals when the last vertex has an edge, an undirected self-loop being multiplied by the number of times graph-tool counts it. Findings: trailing vertices without edge are dropped, and if a signal is attached the export fails; a signal of more than two dimensions makes the export fail unless the graph has a single vertex; self-loops come back doubled.","every graph, graph-tool graph","all graphs",["pygsp/graphs/_io.py:to_graphtool","pygsp/graphs/_io.py:from_graphtool"])
p("C60","save/load dispatch","save and load accept exactly graphml, gml, gexf (explicit or by extension), fall back from networkx to graph-tool only on ImportError, and reject unknown backends; a file format that restores the NetworkX graph restores the graph and its signals.","every path, format, backend and import outcome","all outcomes",["pygsp/graphs/_io.py:save","pygsp/graphs/_io.py:load"])
p("C61","Layouts","set_coordinates accepts exactly arrays whose shape, without its dimensions of size one, is N, Nx2 or Nx3, and stores their values; an unknown name gives ValueError. Line, ring, random, community and eigenmap layouts place the vertices as documented. The spring layout never moves fixed vertices, moves no coordinate by more than 0.05 n(n+3)/(n+1) in n iterations, commutes with translations, and rescaling gives mean zero with largest coordinate scale. Findings: a graph with one vertex rejects every array; community2D never raises the promised ValueError (AttributeError, KeyError, or NameError because Counter is not imported); rescaled coordinates can leave (-scale, scale); the spring layout of one vertex is NaN.","every coordinate array, name, graph, random draw, initial positions, number of iterations","all arrays, draws and iteration counts",["pygsp/graphs/_layout.py"])
p("C62","Vertex features","compute_norm_tig squared sums are the energy of g over the spectrum; compute_spectrogram columns are such norms. Findings: compute_avg_adj_deg is not the average degree of a vertex and its neighbours (it counts two-step vertices); the keyword arguments documented for compute_tig are ignored (always Chebyshev order 30); for a bank, compute_tig returns one copy of the whole frame per filter.","every graph and kernel","all graphs",["pygsp/features.py"])
p("C63","Chebyshev approximation of rectangles","cheby_rect computes the truncated Chebyshev series of the indicator of the band; Jackson coefficients are ch times damping factors in [0,1] with first factor 1; bounds that are not two numbers, and bands leaving the range, are rejected. Finding: the function overwrites the band passed as a list with its rescaled version, so that repeating the same call can fail.","every order, bounds","all orders",["pygsp/filters/approximations.py:cheby_rect","pygsp/filters/approximations.py:compute_jackson_cheby_coeff"])
p("C64","Lanczos","While no breakdown occurs, lanczos(A, order, x) returns V with orthonormal columns and tridiagonal H = V^T A V for symmetric A; with more steps than vertices it stops early, with at most N columns, and H lacks its last row. With several start vectors (a two-dimensional x): start vectors living on parts of the graph that are not connected to each other give the columns each gives alone, block by block. Findings: H is only that of the first start vector; start vectors in the same component are orthogonalised against each other's Krylov spaces, so that the columns are neither those of each alone nor orthonormal, and after a breakdown they come in another order; if one of them is an eigenvector and another is not, the result is NaN.","every symmetric matrix, start vector, order","all orders",["pygsp/filters/approximations.py:lanczos"])
p("C65","Attached signals always fit the graph","After any sequence of set_signal calls every attached signal has first dimension n_vertices; a rejected signal leaves the dictionary unchanged.","all call histories","histories are unbounded",[G+":Graph.set_signal",G+":Graph._check_signal"])
p("C66","Effects on the caller's arrays","Which constructors write into arrays owned by the caller. Graph works on the index arrays of a CSR argument: it sums duplicates and drops explicit zeros in place. The caller's matrix keeps its entries as long as at least half of its arrays stays in use (with fewer, the graph gets its own copy of indices and data but still overwrites the caller's indptr, so the caller's matrix is corrupted); canonical arrays without zeros and rejected arguments are untouched; a graph which shares the arrays sees later writes in W but not in L. RandomRing sorts an ndarray of angles in place and builds the same graph. StochasticBlockModel overwrites the diagonal of a k x k ndarray q, even when the probabilities are then rejected, and a second model on the same q changes the M of the first. NNGraph with center=False, rescale=True multiplies the caller's points in place (idempotently), and turns them into NaN or infinities when they all coincide.","every argument","aliasing is about all later reads",[G+":Graph.__init__","pygsp/graphs/randomring.py","pygsp/graphs/stochasticblockmodel.py","pygsp/graphs/nngraphs/nngraph.py"])
p("C67","Plot normalisation","Signal-to-size normalisation maps into [intercept,1], attains both ends, is monotone; constant signals map to 1/2. A vertex colour or size signal (edge colour or width signal) is accepted iff its squeezed shape is [N] ([n_edges]), and sizes, widths and opacities stay in their documented range (with the default parameters: vertices 25 to 400, edges 1 to 4 wide). Findings: graphs with one edge (vertex) reject every width or colour (size) array; on a graph with three or four vertices (edges) a vertex (edge) signal with values in [0,1] is mistaken for a single RGB(A) colour; the default colour limits (1.05 min, 1.05 max) exclude values unless min <= 0 <= max; the pyqtgraph colour mapping has a precedence error; plot_spectrogram always fails; the pyqtgraph backend fails on 1-D coordinates.","every signal, graph and argument combination","all signals",["pygsp/plotting.py:_plot_graph","pygsp/plotting.py:_plot_signal"])
p("C68","Gabor and Modulation banks","Gabor(g) has one filter per vertex, the i-th being g shifted to eigenvalue e_i; Modulation with modulation first computes the inner products of the signal with the localized modulated kernels when eigenvalues are distinct, filtering the coefficients again multiplies the spectrum by the energy of the modulated kernels (it does not reconstruct the signal, as the documentation has it); off the spectrum the bank evaluates to NaN; with localization first it is the Fourier transform of the windowed signal, whose energy is that of the signal weighted by N times the squared norms of the windows, and the signal is recovered with the same weights; with a repeated eigenvalue the modulation-first evaluation is wrong; wrong kernels are rejected.","every graph, mother kernel, signal","all signals",["pygsp/filters/gabor.py","pygsp/filters/modulation.py"])
p("C69","graph_sparsify: a reweighted connected subgraph with the same total resistance","For every random draw the sparsified graph is undirected, has non-negative weights, and its edges are edges of the input; it is connected unless every attempt gave a disconnected graph; its number of edges is at most the number of draws 0.16 N log N / eps^2 (rounded); the sum over edges of new weight times the effective resistance in the input is exactly N-1, as for the input; with maxiter=1 the expected weights are the input weights. An epsilon outside [1/sqrt N, 1) is rejected. Defects: a graph with at most two vertices or with a self-loop is always rejected with ValueError; maxiter=0 fails with UnboundLocalError; a sparse-matrix argument gets back a matrix that is not a Laplacian (zero diagonal, off-diagonal entries -W).","every connected graph and every sequence of random draws","all random outcomes; expectation over all draws; attempt histories of any length",["pygsp/reduction.py:graph_sparsify"])
p("C70","Filter-bank algebra","len, indexing, slicing (any bounds), addition and re-targeting of filter banks act like lists of kernels: evaluate(g1+g2) is the concatenation, evaluate(g[i]) the i-th row, filtering by g1+g2 the concatenation of responses; g(x) is g.evaluate(x), g(G2) the same kernels on G2, g @ s is g.filter(s) and g.toarray() its matrix. Banks add iff their kernels are both in lists or both in tuples.","all filter banks","all banks",[F+":Filter.__add__",F+":Filter.__getitem__","pygsp/utils.py:filterbank_handler"])
p("C71","rescale_center","rescale_center(x) returns zero-mean rows whose largest entry is exactly 1 and whose coordinate differences are those of x times one positive factor, whenever the points are not all equal; an empty array is rejected.","every coordinate array","all arrays",["pygsp/utils.py:rescale_center"])
p("C72","Constant signals are the kernel of the Laplacian of a connected graph","On a connected graph with non-negative weights L x = 0 iff dirichlet_energy(x) = 0 iff x is constant.","every connected graph and signal","all graphs and signals",[G+":Graph.compute_laplacian",G+":Graph.dirichlet_energy"])
p("C73","Keyword arguments of the graph classes","Each graph class accepts exactly its own parameters and a fixed list of further keywords (positional or by keyword, each at most once); any other call is a TypeError. lap_type given to any class but Grid2dImgPatches becomes the Laplacian type of the graph; coordinates and plotting options given by the caller are used when accepted, and the adjacency matrix is always the class's own; a class built on another one hands it its own parameters (Sensor its k, TwoMoons its sigmag as width, ErdosRenyi all of its own) and every keyword of the caller unchanged. Keywords fixed by a class (k of Cube, Sphere, TwoMoons; plotting of Ring, Star...; coords) are refused; Grid2dImgPatches accepts lap_type but ignores it for the graph.","every class, every list of positional arguments and keywords","the combinations of keywords are unbounded",["pygsp/graphs/*.py:*.__init__","pygsp/graphs/nngraphs/*.py:*.__init__"])
p("C74","Public functions that cannot succeed","tree_multiresolution raises TypeError for every graph and every option (it calls Graph with an unknown keyword), prox_tv raises NameError (or the error of its import) for every argument, and lanczos_op raises AttributeError for every filter bank.","every argument","that no input works cannot be shown by trying some",["pygsp/reduction.py:tree_multiresolution","pygsp/reduction.py:_tree_depths","pygsp/optimization.py:prox_tv","pygsp/filters/approximations.py:lanczos_op"])
p("C75","Sensor networks","Sensor(N, k) is a nearest-neighbour graph of N points of the unit square, which are its coordinates; with distributed=True the square is cut into N equal cells each containing exactly one vertex. N <= k and (distributed) an N that is not a perfect square are rejected. Finding: rounding makes np.mgrid return one row too many for some perfect squares, e.g. Sensor(2401, distributed=True) fails.","every N, k, draw and keyword","random draws",["pygsp/graphs/nngraphs/sensor.py"])
p("C76","Cube and Sphere","Cube in dimension 2 has nb_pts vertices in the unit square; in dimension 3 it has 6*(nb_pts//6) vertices, nb_pts//6 on each face of the unit cube. The vertices of Sphere have norm 1 and keep the directions drawn. Both are the 10-nearest-neighbour graph of these points; other dimensions or samplings and too few points are rejected. Findings: the radius is ignored; vertices are dropped when nb_pts is not a multiple of six; Cube(nb_dim=1) fails with UnboundLocalError.","every draw and parameter","random draws",["pygsp/graphs/nngraphs/cube.py","pygsp/graphs/nngraphs/sphere.py"])
p("C77","TwoMoons","Synthesized moons have N//2 points labelled 0 around the lower arc and N-N//2 labelled 1 around the upper one, each at distance |sigmad * draw| of its arc; standard moons are the first dim rows of the file with 1000 labels of each class, whatever N, sigmad, distance and seed. Unknown types are rejected; without seed the two moons are drawn independently. Finding: with a seed and an even N both moons use the same draws, so each point of the second is the mirror image of one of the first with the same noise.","every draw and parameter","random draws",["pygsp/graphs/nngraphs/twomoons.py"])
p("C78","SwissRoll and DavidSensorNet","SwissRoll is undirected without self-loop; two vertices are joined with weight exp(-dist^2/2s^2) unless that is below the threshold, i.e. exactly within |s| sqrt(-2 ln thresh); coordinates are the drawn points centred and scaled to largest coordinate 1; without noise the points lie on the spiral (t cos t, t sin t), t between pi a and pi b. Coinciding points and s = 0 are rejected, other dim or srtype fail with UnboundLocalError. DavidSensorNet (N not 64 or 500) joins two sensors exactly within |cutoff(N)|, with weight 0.6^((dist/cutoff)^2) in [0.6,1]. Finding: that radius grows again with N, and from 5696 sensors on the graph is complete.","every draw and parameter","random draws",["pygsp/graphs/swissroll.py","pygsp/graphs/davidsensornet.py"])
p("C79","Image patch graphs","ImgPatches has one vertex per pixel (row-major); the features of a vertex are the r x c window around its pixel of the image mirrored at its borders, its own pixel at position ((r-1)//2,(c-1)//2); every patch shape of positive size works on every image with more than k pixels, with or without channels. Grid2dImgPatches has the coordinates of the grid and weights aggregate(Wp, Wg); by default their sum, hence it is connected and undirected. Wrong dimensions, missing scikit-image, empty patches and (when rescaling) constant images are rejected. Findings: images that are not 2-D or 3-D fail with UnboundLocalError; Grid2dImgPatches rejects images with a single column.","every image, patch shape and keyword","all images",["pygsp/graphs/nngraphs/imgpatches.py","pygsp/graphs/nngraphs/grid2dimgpatches.py"])
p("C80","The ready-made kernels are continuous","Every kernel of the Meyer, SimpleTight, Itersine, HalfCosine, Held, Simoncelli, Papadakis, Regular, Heat, MexicanHat, Abspline, Expwin and Wave banks, and every Gabor translate of a continuous kernel, is a continuous function of the frequency: the pieces these kernels are assembled from agree where they meet, for every number of filters, scale and parameter. Rectangular, the ideal filter, is not. (Meyer and SimpleTight need two filters or more: with one they are constructed, but every evaluation raises IndexError.)","every bank, parameter and frequency","all frequencies and parameters",["pygsp/filters/meyer.py","pygsp/filters/simpletight.py","pygsp/filters/itersine.py","pygsp/filters/halfcosine.py","pygsp/filters/held.py","pygsp/filters/simoncelli.py","pygsp/filters/papadakis.py","pygsp/filters/regular.py","pygsp/filters/heat.py","pygsp/filters/mexicanhat.py","pygsp/filters/abspline.py","pygsp/filters/expwin.py","pygsp/filters/wave.py","pygsp/filters/gabor.py","pygsp/filters/rectangular.py"])
p("C81","Graphs from data files","Airfoil is undirected with weight half the number of times the file joins two vertices, and accepts exactly the files of the right length whose indices are in range. Minnesota() has unit weights and joins two vertices iff the file does (positive weight) or they are the ends of the added road; it is connected iff the file links every vertex to one of these ends; Minnesota(connected=False) keeps the weights of the file. Logo and DavidSensorNet(64/500) keep the weights and coordinates of the file, Bunny joins points at most 0.02 apart. On the packaged files: Minnesota() is connected with 2642 vertices and 3304 edges (disconnected, with eight weights of two, if connected=False), Airfoil() with 4253 and 12289, Logo() with 1130 and 3131, its index lists partitioning the vertices.","every file content; and the packaged files","all file contents; thousands of entries at once",["pygsp/graphs/airfoil.py:Airfoil","pygsp/graphs/minnesota.py:Minnesota","pygsp/graphs/logo.py:Logo","pygsp/graphs/nngraphs/bunny.py:Bunny","pygsp/graphs/davidsensornet.py:DavidSensorNet"])
p("C82","The spectrum is a property of the graph","Every graph has a full Fourier basis, which compute_fourier_basis can return after any history of calls. The eigenvalues G.e are determined by the graph: any two eigensolvers give the same list, and filtering (exact or Chebyshev) gives the same answer whichever orthonormal eigenvectors the solver chose. Renaming the vertices leaves the spectrum unchanged and permutes Laplacian and filtered signals accordingly. The combinatorial eigenvalues sum to the total weight (self-loops excluded); on undirected graphs with non-negative weights the eigenvalue 0 occurs as often as extract_components returns graphs, for both Laplacians.","every graph, eigensolver, filter bank, permutation of the vertices and history of calls","eigensolvers are free in signs and rotations; all graphs and permutations",["pygsp/graphs/fourier.py:GraphFourier.compute_fourier_basis",G+":Graph.compute_laplacian",G+":Graph.extract_components",F+":Filter.filter"])
p("C83","The Fourier transforms of the regular graphs are the classical ones",
"Whatever eigensolver computed the basis (combinatorial Laplacian): on Path(N) the eigenvalues are 2-2cos(pi k/N), every column of U is plus or minus the k-th orthonormal DCT-II vector and gft returns the DCT-II up to signs; on Ring(N,k), 2k<N, the DFT diagonalizes L (the DFT of L x is the DFT of x times sum_{d<=k}(2-2cos(2 pi m d/N))) and G.e is the sorted list of those numbers; on Ring(N) the frequencies come as 0,1,1,2,2,... and the squared gft coefficients of a frequency add up to the normalized squared modulus of the DFT; on Grid2d(N1,N2) without diagonals and on Torus, G.e is the sorted list of sums of the eigenvalues of the two paths (rings), Kronecker products of their eigenvectors are eigenvectors, and the energy of gft over any set of eigenvalues is that of the Kronecker product of the two transforms.",
"every size, every signal, every exact eigensolver answer",
"holds for every N and for every basis an eigensolver may return in the double eigenspaces; tests compare a few sizes with scipy.fft",
["pygsp/graphs/path.py: Path","pygsp/graphs/ring.py: Ring","pygsp/graphs/grid2d.py: Grid2d","pygsp/graphs/torus.py: Torus","pygsp/graphs/fourier.py: GraphFourier.gft, compute_fourier_basis"])
p("C84","Textual descriptions and default titles",
"repr(G) is Name(n_vertices=n, n_edges=m, key=value, ...) with the attributes of the class in order and the values the constructor was given (or computed); under a limit L >= 2 the first L-2 extra attributes are kept and the others replaced by three dots (a limit below 2 is ignored), so the default title of a plot shows at most two of them; repr(filter) is Name(in=1, out=number of filters, key=value, ...). Both succeed for every graph and filter class built with parameters of the documented types, except for a stochastic block model (or ErdosRenyi) given the matrix M: repr and every plot without title raise AttributeError.",
"every class, parameter values, size, limit",
"a test prints a few objects; the failure depends on a combination of constructor argument and later call",
["pygsp/graphs/graph.py: Graph.__repr__, _get_extra_repr","pygsp/filters/filter.py: Filter.__repr__","pygsp/graphs/stochasticblockmodel.py: _get_extra_repr","pygsp/plotting.py: _plot_graph (title)","pygsp/graphs/*.py, pygsp/graphs/nngraphs/*.py, pygsp/filters/*.py: _get_extra_repr"])
p("C85","Filters are local on the graph",
"With the default Chebyshev method of order o, the value a filter outputs at a vertex depends only on the values of the signal at vertices at most o hops away (analysis and synthesis, any number of signals and features), so an atom obtained by localize is supported on the o-hop neighbourhood of its vertex; g @ s and g.toarray() use order 30 and never read the Fourier basis; and with every method, exact or polynomial, what comes out in a connected component depends only on the signal on that component.",
"every graph, bank of kernels, order, signals, vertex",
"ranges over all graphs, kernels and pairs of signals; a test compares a few",
["pygsp/filters/filter.py: Filter.filter, localize","pygsp/filters/approximations.py: cheby_op, compute_cheby_coeff"])
p("C86","Heat filtering is a diffusion",
"Filtering exactly with the Heat bank on a graph with non-negative weights conserves the sum of the signal, keeps it between its initial minimum and maximum, and never increases its norm or its Dirichlet energy. On a connected graph any non-negative, non-zero signal becomes strictly positive at every vertex for every positive scale, the distance to the mean decays at least like exp(-scale e[1]/lmax) with e[1] > 0, and for large scales only the mean is left.",
"every graph, scale, signal, vertex",
"a statement about all graphs and real signals, and a limit in the scale",
["pygsp/filters/heat.py: Heat","pygsp/filters/filter.py: Filter.filter"])
p("C87","Tikhonov regression as a denoiser",
"When every vertex is labelled, regression_tikhonov with tau > 0 is exactly the graph filter with kernel 1/(1+tau x), for both Laplacians and any number of columns; its distance to the measurements is at most tau times the norm of L y, and its distance to their mean (connected graph) at most 1/(1+tau e[1]) of theirs. With any mask, a larger tau gives a smaller Dirichlet energy and a larger error on the labels; and larger measurements give a larger signal at every vertex.",
"every graph, mask, tau, measurements",
"relates two separate APIs and two runs with different parameters, for all inputs",
["pygsp/learning.py: regression_tikhonov","pygsp/filters/filter.py: Filter.filter"])
p("C88","How spectrum and resistances move with the weights",
"Increasing weights or adding edges never decreases an eigenvalue of the combinatorial Laplacian and never increases a resistance distance; changing a single edge moves no eigenvalue past the next one. Multiplying all weights by c > 0 multiplies the combinatorial Laplacian and its eigenvalues by c and leaves the normalized Laplacian unchanged, and banks whose kernels only depend on x/lmax, such as Heat, give the same output.",
"every pair of graphs on the same vertices with ordered (or proportional) weights, every index, pair of vertices, signal",
"relates the outputs of two different graphs; holds for all graphs of all sizes",
["pygsp/graphs/graph.py: Graph.compute_laplacian","pygsp/graphs/fourier.py: compute_fourier_basis","pygsp/utils.py: resistance_distance","pygsp/filters/heat.py: Heat"])
p("C89","Figures opened by pygsp and what is drawn on them","After any history of plot calls (successful or failed) and of windows opened and closed by the user, plotting.close_all() closes exactly the figures and widgets pygsp opened and leaves the user's windows alone. A plot call with accepted arguments opens exactly one new figure when ax is None and returns axes on it (3-D iff the coordinates are), and opens none when axes are given; a call with refused arguments opens nothing. G.plot draws one disk per vertex at its coordinates, one line per edge, a ring around each highlighted vertex (negative indices count from the end, missing ones are an IndexError), the numbers of the vertices if asked, and a colour bar iff the colours show a signal (a single colour, or one colour per vertex, gives none); with 1-D coordinates one curve per signal. Filter.plot draws the curves (t, g_i(t)) through all the known eigenvalues, and the curve of the sum of squares, which is flat for tight frames. Findings: with 1-D coordinates G.plot() without a signal always fails and leaves an empty figure open, and indices=True is a TypeError.","every history, every graph, coordinates, signal and filter bank","histories are unbounded; all inputs",["pygsp/plotting.py:_plt_handle_figure","pygsp/plotting.py:close_all","pygsp/plotting.py:_plt_plot_graph","pygsp/plotting.py:_plt_plot_filter"])
p("C90","Attributes over the life of a graph object",
"Assigning G.W raises AttributeError and changes nothing. As long as nobody writes into the matrix, every answer of A, d, dw, n_edges, L, is_directed, is_connected, is_weighted, has_loops and get_edge_list is the one computed from W and the last requested Laplacian type, whatever was called before in whatever order. After writes into the matrix (G.W[i,j] = v, which the code cannot prevent): dw, n_edges and is_directed keep the values of construction for ever; A, d and is_connected are snapshots of the first read; W, is_weighted and has_loops are current; get_edge_list lists the current weights or raises AssertionError when the number of edges changed; and compute_laplacian returns the current weights subtracted from the degrees of construction, which is the Laplacian of the current weights exactly when no weighted degree changed. Finding: after a write compute_laplacian silently gives a matrix whose rows do not sum to zero.",
"every graph, every history of reads, recomputations, assignments and writes",
"histories are unbounded and the answers depend on the order of the calls",
["pygsp/graphs/graph.py: Graph.W, A, d, dw, compute_laplacian, is_directed, is_connected, get_edge_list"])
p("C91","When the spectral bound is exact",
"estimate_lmax('bounds') on the combinatorial Laplacian is the smallest of n max W, 2 max dw, the largest dw[u]+dw[v] over the edges, and (no isolated vertex) the largest dw plus mean degree of the neighbours. It is the largest eigenvalue for full graphs with equal weights, and for two-sided graphs with constant weighted degree on each side (regular bipartite, complete bipartite, stars, even rings); on a connected graph twice the largest degree is an eigenvalue only if the graph is bipartite and regular. On the normalized Laplacian the bound 2 is attained iff some component with an edge is bipartite, hence iff the graph is bipartite when it is connected; the comment 'equal iff the graph is bipartite' fails for disconnected graphs.",
"every graph with non-negative weights, directed or not, with or without self-loops, both Laplacians",
"an equality of a bound with an eigenvalue for whole classes of graphs; the tests check three graphs",
["pygsp/graphs/graph.py: Graph._get_upper_bound, estimate_lmax"])
p("C92","What rounding changes and what it cannot",
"With every addition, subtraction and halving rounded (in whatever order the sums are computed), the result of utils.symmetrize and the combinatorial Laplacian of any graph are exactly symmetric (the methods maximum, tril and triu of symmetrize are exact, average and fill have the relative error u per entry). The Laplacian of an undirected graph with non-negative weights is exact off the diagonal; each diagonal entry, each row sum, the quadratic form and each eigenvalue is off by at most ((1+u)^n - 1) times the (largest) weighted degree. With a backward-stable eigensolver, compute_fourier_basis in double precision then passes its own assertions as long as n max(dw) <= 4e10, and G.e[0] is set to 0. On any graph with non-negative weights, directed or not, the entries off the diagonal have the relative error u (and the error eta of a division by two), the diagonal entries, the quadratic form and the eigenvalues the relative error ((1+u)^(n+3) - 1) with respect to the weighted degrees plus (n+4) eta, and in double precision the assertions pass if (n+3) max(dw) <= 3e10 and some weight is at least 1e-5. If the weights are integers (even on a directed graph) and the degrees small enough nothing is rounded at all. Findings: on the connected path with weights 2^54 and 1 the smallest eigenvalue of the rounded Laplacian is below -0.36, the first call of compute_fourier_basis raises AssertionError but keeps the basis, and the second call succeeds; and the absolute tolerance 1e-12 in estimate_lmax rejects an answer with an arbitrarily small relative error if the weights are large. The normalized Laplacian of an undirected graph with non-negative weights (inverse square roots with the relative error v, products rounded without underflow): each entry off the diagonal has the relative error eps = (1+u)^(2n+1) (1+v)^2 - 1 at most, each diagonal entry and each eigenvalue the absolute error eps, and in double precision (weights between 2^-300 and 2^300, at most 10^7 vertices, no loops, some edge) compute_fourier_basis passes its assertions. Findings: unlike the combinatorial one it is not exactly symmetric (triangle with the weights 7, 2, 18), and on two vertices with self-loops of weight 8649 the first call of compute_fourier_basis raises AssertionError (both eigenvalues are -2^-52, the first is set to 0) while the second succeeds.",
"every rounding (double precision in particular), every order of summation, every graph, every answer of the eigensolver",
"quantifies over all weights, all orders in which a library may add and all roundings",
["pygsp/graphs/graph.py: Graph.dw, compute_laplacian, estimate_lmax","pygsp/graphs/fourier.py: compute_fourier_basis","pygsp/utils.py: symmetrize"])
p("C93","Filtering and transforms are stable",
"With whatever basis the eigensolver returned, the output of the exact method differs from the ideal one by at most K |L U - U diag(e)|_F sqrt(1+delta) + C delta times the norm of the signal (kernel K-Lipschitz and bounded by C on the spectrum, delta the defect of orthogonality of U), igft(gft(s)) differs from s by at most delta |s|, and gft preserves the energy up to delta. On two graphs with the same vertices the outputs of a K-Lipschitz kernel differ by at most K |L1 - L2|_F times the norm of the signal, and the k-th eigenvalues by at most |L1 - L2|_F, which is at most n sqrt(n-1) eta if no weight changed by more than eta; for Heat, whose kernels depend on lmax, the factor is 2 scale/lmax. If only the degrees and the Laplacian are rounded the factor is K ((1+u)^n - 1) times the norm of the degrees. Finding: with the discontinuous kernel of Rectangular an arbitrarily small change of one weight turns an output from the whole signal into zero.",
"every graph or pair of graphs, every basis returned, every Lipschitz kernel, every signal",
"quantifies over all answers of the eigensolver and all perturbations",
["pygsp/filters/filter.py: Filter.filter","pygsp/graphs/fourier.py: gft, igft, compute_fourier_basis","pygsp/filters/heat.py: Heat","pygsp/filters/rectangular.py: Rectangular"])
p("C94","Spectra of full graphs, stars, regular and bipartite graphs",
"Whatever eigensolver computed the basis: the eigenvalues of FullConnected(N) are 0 and then N, N, ..., and exact filtering by g multiplies the mean of the signal by g(0) and its deviation from the mean by g(N); those of Star(N) are 0, then 1 (N-2 times), then N, and exact filtering multiplies the mean by g(0), the deviation of the leaves from their mean by g(1) and the rest by g(N). If all weighted degrees equal d > 0 the normalized Laplacian is the combinatorial one divided by d: eigenvalues are divided by d, the Fourier bases are the same, and filtering with g on the normalized one is filtering with g(t/d) on the combinatorial one; so the normalized eigenvalues are 0 and N/(N-1) for FullConnected(N), and 1-cos(2 pi m/N), m = 0,1,1,2,2,..., for Ring(N). The normalized spectrum of a bipartite graph without isolated vertices is symmetric about 1, the sign change on one side exchanging the eigenvectors of lambda and 2-lambda.",
"every N, every basis returned by the eigensolver, every kernel and signal, every regular graph, every bipartite graph",
"quantifies over all sizes and over all bases an eigensolver may return (the eigenvalues are highly degenerate)",
["pygsp/graphs/fullconnected.py: FullConnected","pygsp/graphs/star.py: Star","pygsp/graphs/ring.py: Ring","pygsp/graphs/graph.py: Graph.compute_laplacian","pygsp/graphs/fourier.py: compute_fourier_basis","pygsp/filters/filter.py: Filter.filter"])
p("C95","Analysis followed by synthesis",
"g.filter(g.filter(s)), for either method, any number of filters and any batch of signals, returns as many signals as it was given, each multiplied in the spectral domain by the sum of the squared kernels; with the exact method and A, B the frame bounds at the eigenvalues, dividing by (A+B)/2 gives back the signal with a relative error of at most (B-A)/(B+A).",
"every graph, bank of kernels, method, batch of signals",
"an identity over all signals and banks, including the coincidences of shapes (one filter, as many filters as vertices or signals)",
["pygsp/filters/filter.py: Filter.filter, estimate_frame_bounds"])
p("C96","Adjacency matrices of Boolean or machine-integer type",
"Graph(W) keeps the element type of W. If W is symmetric, or if no sum w(i,j)+w(j,i) leaves the range of the type, both Laplacians are those of the same weights given as real numbers; otherwise the row sums of the combinatorial Laplacian are half of what these additions lost (so that, for Booleans and unsigned integers, constant signals are in the kernel exactly if nothing was lost), and symmetrize(W, 'average') of a symmetric matrix returns it exactly if twice each entry is representable (a Boolean matrix comes back with weights 1/2).",
"every size, matrix, Boolean / unsigned / signed type of any width and Laplacian type",
"overflow depends on pairs of entries of otherwise valid matrices; tests use floats or small integers",
["pygsp/graphs/graph.py: Graph.__init__, dw, compute_laplacian","pygsp/utils.py: symmetrize"])
p("C97","Filter banks over the life of their graph",
"Heat (not normalized), Wave, Expwin, Rectangular, Held, Simoncelli, Papadakis and Regular banks read nothing when they are built and, whenever evaluated or used for exact filtering (also through g(H)), act as the bank for the lmax that the graph they were built on returns at that moment. Meyer, SimpleTight, Itersine, HalfCosine, MexicanHat and Abspline are settled when built and answer the same in every later state, never touching a graph. Normalized heat banks keep the norms of the spectrum they were built on. Filtering with the default method never computes the Fourier basis. Every bank built and evaluated on a graph with computed basis and lmax is the documented bank for that spectrum and changes nothing. Held, Simoncelli, Papadakis and Regular stay tight whatever happens to their graph and whatever graph the signals are on; Gabor banks follow G.e; Modulation banks keep the coefficients of their first evaluation. Findings: after a change of Laplacian type the live banks can raise TypeError, settled tight banks can lose signals, Modulation banks are stale, and g(H) scales frequencies by the lmax of the graph it was built on.",
"every bank and parameters, every state of every graph object at construction and at every later evaluation (hence every history of calls in between), every solver answer and input",
"depends on what was called between construction and use; tests use a bank right after building it",
["pygsp/filters/*.py: the constructors","pygsp/filters/filter.py: evaluate, filter, __call__, __add__, complement","pygsp/graphs/graph.py: lmax","pygsp/graphs/fourier.py: e"])
p("C98","Predictions are weighted averages of the labels",
"Fix a graph, a mask and tau (a labelled vertex in every component). There are non-negative weights, zero on unlabelled vertices and with sum 1 at every vertex, such that regression_tikhonov returns for every vertex the weighted average of the measurements, for all measurements and columns, and classification_tikhonov returns for every vertex and class the total weight of the vertices labelled with that class. A label has positive weight at a vertex exactly when a path leads from the vertex to it (tau > 0), or a path that leaves no labelled vertex (tau = 0). For tau > 0 the weights are symmetric; for tau = 0 a labelled vertex keeps its own label. Hence measurements known up to eps give predictions known up to eps everywhere, and changing the unit of the measurements changes the unit of the prediction. When every vertex is measured, inexact measurements, weights and solver residuals move the answer by no more than their norms (the change of the Laplacian scaled by tau).",
"every graph, mask with a label in every component, tau, measurements with any number of columns, and class labels",
"the weights must be the same for all measurements, and positivity depends on the whole path structure",
["pygsp/learning.py: regression_tikhonov, classification_tikhonov"])
p("C99","What the coherence of the Fourier basis bounds",
"G.coherence returns the largest absolute entry of the Fourier basis that is then stored and used by the transforms and filters; it returns a number on every graph with a vertex and non-negative weights. With coherence c: no coefficient of the transform of a signal exceeds c times the absolute sum of the signal and no value of a signal exceeds c times the absolute sum of its transform; a signal that is not zero with a non-zero entries and b non-zero coefficients has a*b*c^2 >= 1 (uncertainty principle); the atoms localized by a filter have a norm of at most sqrt(N) c times the norm of the kernel over the eigenvalues, and entries of at most sqrt(N) c^2 times its absolute sum. For the combinatorial Laplacian, c = 1 only if some vertex has no edge to another one; on a connected graph c <= sqrt(1 - 1/N), and the star attains this bound; on a path c lies between sqrt(2/N) cos(pi/(2N)) and sqrt(2/N). Finding: the converse suggested by the documentation (a disconnected vertex makes the coherence 1) is false: on two vertices without edges the solver may return a basis whose coherence is 1/sqrt(2).",
"every graph, history of the cached attributes, legal answer of the eigensolver, signal, filter and vertex",
"bounds over all signals and all bases an eigensolver may choose",
["pygsp/graphs/fourier.py: coherence, compute_fourier_basis, gft, igft","pygsp/filters/filter.py: Filter.localize","pygsp/graphs/star.py: Star","pygsp/graphs/path.py: Path"])
p("C100","The Fourier basis sorts signals by smoothness",
"With the first m eigenpairs (a partial or the full basis, any exact answer of the solver): the Dirichlet energy of the column G.U[:, k] is G.e[k], and no signal of norm one orthogonal to the columns before it has a smaller one; no m orthonormal signals have a smaller total energy than the first m columns. Hence set_coordinates('laplacian_eigenmap2D'/'3D') on a connected graph with non-negative weights returns the centred layout with orthonormal coordinates whose weighted squared edge lengths are the smallest. Keeping the first K coefficients of a signal (igft of the truncated gft) gives a signal that is smoother than the original, is the closest one made of the first K columns, and whose squared error times G.e[K] is at most the Dirichlet energy of the signal. filters.Rectangular(G, band_max=b) with the exact method gives a signal with no more Dirichlet energy than the input and than b*lmax times its squared norm, whose squared error times b*lmax is at most the energy of the input, and filtering twice is filtering once.",
"every graph (with non-negative weights where said), number of eigenvectors, answer of the eigensolver, signal, cut-off and competing layout",
"minimality over all signals, all orthonormal families and all layouts",
["pygsp/graphs/fourier.py: compute_fourier_basis, gft, igft","pygsp/graphs/graph.py: dirichlet_energy","pygsp/graphs/_layout.py: set_coordinates","pygsp/filters/rectangular.py: Rectangular"])
p("C101","Filters and predictions respect the symmetries of the graph",
"Let p be a relabelling of the vertices that leaves every weight as it is. Filtering a signal moved along p gives the filtered signal moved along p, for every bank by either method; signals that p leaves alone stay so; localize at p(i) is localize at i, moved; the energy of the gft over any set of eigenvalues and the Dirichlet energy do not change; the predictions of regression_tikhonov from moved measurements and mask are the predictions, moved. Ring has all rotations and the reversal, Torus the rotations along both directions, Path the reversal, Grid2d (with or without diagonals) both reflections and, when square, the transposition, FullConnected every permutation, Star every permutation fixing the centre. Hence on Ring and Torus filtering is the circular convolution with the response to an impulse at vertex 0. On Grid2d and Torus, filters.Heat with diffusion time t (scale t*lmax) is diffusion for time t along every row (a Path or Ring) followed by diffusion along every column.",
"every built graph with non-negative weights, symmetry, size of the generated graphs, bank, method, signal, exact answer of the eigensolver, mask and tau",
"all symmetries and signals at once, and whatever basis the eigensolver picks inside an eigenspace",
["pygsp/filters/filter.py: Filter.filter, Filter.localize","pygsp/graphs/fourier.py: gft","pygsp/graphs/graph.py: dirichlet_energy","pygsp/learning.py: regression_tikhonov","pygsp/graphs/{ring,torus,path,grid2d,fullconnected,star}.py","pygsp/filters/heat.py: Heat"])
p("C102","Spectral attributes over the life of a graph object whose weights are written in place",
"The spectral calls (lmax, estimate_lmax, U, e, coherence, compute_fourier_basis, D, compute_differential_operator) change no other attribute: W, A, d, dw, L, n_edges, the predicates and the edge list answer as if they had not been made. On an object nobody writes into, whatever else is read in between, the spectral attributes are those of C15 and C16 (about the current L). After writes into G.W: a full basis and its coherence, lmax, and D once read are never refreshed, not even by compute_laplacian, as long as the Laplacian type asked for stays the same; asking for another type drops them, and the next read asks the solver about the L of that moment. If the writes changed the number of edges (combinatorial Laplacian), the first computation of D, of lmax and of a basis raises AssertionError, but the e and U of that failed decomposition are kept and returned afterwards. D computed after writes factors the Laplacian of the current weights, which is G.L exactly when no weighted degree changed. Finding: after one edge weight is changed in place and compute_laplacian() is called, e, U and lmax silently describe a matrix that is not L: the first eigenpair fails and L has an eigenvalue above lmax. The bounds estimate made after writes is the minimum of the same four numbers as at construction with the current weights but the degrees (and directedness) of construction; it can be below an eigenvalue of the recomputed L.",
"every graph, every history of attribute reads, spectral calls, recomputations and writes, every answer of the solvers",
"histories are unbounded and mix cached and current attributes",
["pygsp/graphs/graph.py: Graph.W, lmax, estimate_lmax, compute_laplacian, _get_upper_bound","pygsp/graphs/fourier.py: U, e, coherence, compute_fourier_basis","pygsp/graphs/difference.py: D, compute_differential_operator"])
p("C103","Cuts and distances read off the spectrum",
"The Dirichlet energy of the indicator of a set of vertices is the total weight of the edges leaving it. For every set S of a vertices the cut lies between e[1] a (N - a) / N and e[N-1] a (N - a) / N with the combinatorial Laplacian, and the same with volumes instead of numbers of vertices for the normalized one. Conversely (Cheeger) some threshold of the second column of U, on one of its two sides, separates at most half of the vertices (of the volume) with a cut of at most sqrt(2 D e[1]) times their number, D the largest degree (sqrt(2 e[1]) times their volume, thresholding U[:, 1] / sqrt(dw), for the normalized one): one-dimensional spectral clustering is within a square root of the best cut. On a connected graph e[1] > 0 with either Laplacian. If the eigenvalues take only m different values, two vertices joined by a path are at most m - 1 hops apart.",
"every graph with non-negative weights, every set of vertices, every exact eigendecomposition, full or truncated (m >= 2) for the thresholds",
"quantifies over all sets of vertices and all graphs; the threshold is an existence statement",
["pygsp/graphs/fourier.py: compute_fourier_basis, U, e","pygsp/graphs/graph.py: compute_laplacian, dirichlet_energy, dw"])
p("C104","Spectra and filters of the parts of a graph",
"For a graph with non-negative weights and its combinatorial Laplacian: the eigenvalues of the subgraph on a set of vertices lie, rank by rank, between e[k] - D and e[k + number of removed vertices], D the largest weight a kept vertex loses; hence when removing some vertices disconnects the rest, e[1] is at most D (at most the number of removed vertices with weights up to 1), a bound that is attained. The eigenvalues of a Kron reduction interlace those of the graph: e[k] <= e'[k] <= e[k + number of eliminated vertices]. With either Laplacian, on a set of vertices that no edge leaves, filtering the whole graph gives exactly the answer of filtering the subgraph alone (both methods, same lmax), and the spectrum of a graph is the union with multiplicities of the spectra of the graphs extract_components returns.",
"every graph with non-negative weights, every duplicate-free selection of vertices, every eigendecomposition of the graph and of its parts, every kernel and batch of signals",
"compares the spectra and filters of two different graphs, for all graphs, selections and eigendecompositions",
["pygsp/graphs/graph.py: subgraph, extract_components, compute_laplacian","pygsp/graphs/fourier.py: compute_fourier_basis, e","pygsp/filters/filter.py: filter","pygsp/reduction.py: kron_reduction"])
p("C105","The second Fourier mode splits a connected graph into connected clusters",
"On a connected graph with non-negative weights, the vertices where the second column of U is non-negative, and those where it is non-positive, each form a connected set, whatever basis the eigensolver returned (multiple eigenvalues included) and with either Laplacian; so do the vertices above any threshold - r times the constant mode and below r times it (r >= 0). On an undirected graph subgraph(G.U[:, 1] >= -r) and subgraph(G.U[:, 1] <= r) succeed, are not empty and is_connected answers True on them. The third mode has no such property.",
"every connected graph with non-negative weights, every exact eigendecomposition, full or truncated (m >= 2), both signs, every r >= 0",
"a statement about every eigenvector an eigensolver may return on every connected graph; tests see one basis of one graph",
["pygsp/graphs/fourier.py: compute_fourier_basis, U","pygsp/graphs/graph.py: subgraph, is_connected, compute_laplacian"])
p("C106","Regression recovers smooth signals from enough samples",
"regression_tikhonov with tau = 0: the energy of any signal with the given labels is the energy of the result plus that of the error, so the squared error is at most (excess energy) / mu for every mu such that signals vanishing on the labels have energy at least mu times their squared norm, and at most w / mu times the squared norm of the signal when it has no Fourier component above w. Signals without components at or above mu are determined by their labels. With tau > 0 and noisy labels the squared error is at most (noise energy + tau times the energy of the signal) / nu, nu the smallest eigenvalue of M + tau L. A positive mu exists exactly when every vertex is linked by a path to a label; the weight from every vertex to the labels is such a mu, and so is w / (n D^2) when labels are within D links of weight w; more labels never lower it; with m labels no mu exceeds the eigenvalue number m, and signals of that bandwidth may vanish on every label.",
"every graph with non-negative weights and combinatorial Laplacian, every mask, every number of signals, every label values, every exact solution of the systems, every eigendecomposition",
"error bounds over every signal, every mask and every noise; tests compare a few recovered signals",
["pygsp/learning.py: regression_tikhonov","pygsp/graphs/graph.py: compute_laplacian, dirichlet_energy","pygsp/graphs/fourier.py: compute_fourier_basis"])
p("C107","Graph operations compose and can be undone",
"A graph object is determined by its size, weights, Laplacian type, coordinates and signals: edge count, Laplacian and everything computed from them coincide; Graph(G.W, G.lap_type, coords) rebuilds G. subgraph of a subgraph is the subgraph of the vertices it names, subgraph of all the vertices in order (list, negative indices or mask) is the graph itself, and any reordering of the vertices is undone by another: in each case the same weights, Laplacian, coordinates and signals. A connected undirected graph is its own only component, the components of a component are that component alone, and numbers of vertices, of edges and Dirichlet energies add up over the components.",
"every graph, every selection by indices (negative, repeated, in any order) or by mask, every traversal order; connected components for undirected graphs with non-negative weights",
"equalities between compositions of calls on every graph and every selection; tests compose at most two calls on a few graphs",
["pygsp/graphs/graph.py: __init__, subgraph, extract_components, set_signal, dirichlet_energy, n_edges"])
p("C108","Every edge signal is a gradient plus a divergence-free part",
"For every edge signal y there are a vertex signal x and an edge signal z with y = grad(x) + z, div(z) = 0 and grad(x) orthogonal to z. Both parts are determined by y; the squared norms add up; grad(x) is the gradient nearest to y; the potentials x are exactly the solutions of L x = div(y). The gradients of the Fourier modes are orthogonal, with squared norm the eigenvalue, and are eigenvectors of grad(div(.)). With the combinatorial Laplacian divergences sum to zero, and on a connected graph every signal of sum zero is a divergence and is L x for some x. A connected graph with m edges and n vertices has no m - n + 2 independent circulations, and m - n linear conditions leave a non-zero one: no circulation exists, and every edge signal is a gradient, exactly when m = n - 1.",
"every graph with non-negative weights (directed or not), both Laplacians for the decomposition; every edge signal; every connected graph with the combinatorial Laplacian for the solvability and counting claims",
"existence and optimality over all vertex signals and all edge signals of every graph",
["pygsp/graphs/difference.py: grad, div, compute_differential_operator","pygsp/graphs/graph.py: compute_laplacian"])
p("C109","What resistance distances measure",
"On a connected graph with the combinatorial Laplacian, the distances R returned by resistance_distance satisfy: a signal with difference d between i and j has Dirichlet energy at least d^2 / R_ij, and some signal attains it; an edge signal whose divergence is +1 at i and -1 at j has squared norm at least R_ij, with equality exactly for the gradient of a vertex signal, and one exists. On every edge weight times resistance is at most 1, with equality exactly when every divergence-free edge signal vanishes on that edge; all edges reach equality exactly when n_edges = n_vertices - 1. If every edge weighs at least w, R_ij is at most the number of steps of any walk from i to j divided by w. R_ij = sum over the positive eigenvalues of (U_ik - U_jk)^2 / e_k, lies between 2/e_max and 2/e_1, and all resistances sum to n times the sum of the 1/e_k. R_ij = |i-j| on Path(N) and 2/N on FullConnected(N). Every connected graph has such distances.",
"every connected graph with non-negative weights and the combinatorial Laplacian, every pair of vertices, every vertex signal, every edge signal, every Fourier basis",
"variational characterisations quantify over all signals; tests compare a few numbers on small graphs",
["pygsp/utils.py: resistance_distance","pygsp/graphs/difference.py: grad, div","pygsp/graphs/graph.py: dirichlet_energy, get_edge_list, n_edges","pygsp/graphs/path.py: Path","pygsp/graphs/fullconnected.py: FullConnected"])
p("C110","What the ends of the spectrum say about the edges",
"For a graph with non-negative weights, the combinatorial Laplacian and the exact eigenvalues e: n/(n-1) times the degree of any vertex (self-loop excluded), and for any two vertices the mean of their degrees plus the weight between them, lie between e[1] and e[-1]; an independent set of vertices of degree at least D has at most n (1 - D/e[-1]) vertices (Hoffman); if k colours suffice to give the ends of every edge different colours, e[-1] <= k (e[-1] - D) with D the smallest degree; if removing some vertices separates two non-empty sets, some vertex of these sets has weight at least e[1] towards the removed vertices, so that with weights at most one e[1] is at most the number of vertices to remove (Fiedler); if all vertices have degree d and |d - e[k]| <= mu for k >= 1, the weight between any two sets S and T is d|S||T|/n up to mu sqrt(|S|(1-|S|/n)|T|(1-|T|/n)) (mixing). The bounds are attained by stars and full graphs.",
"every graph with non-negative weights, every exact eigendecomposition (partial ones for the bounds with e[1]), all sets of vertices, colourings, separators",
"all graphs and all sets of vertices",[G+":Graph.compute_laplacian","pygsp/graphs/fourier.py:GraphFourier.compute_fourier_basis"])
p("C111","Predictions on a reduction or an isolated part of the graph",
  "Let G have non-negative weights and a combinatorial Laplacian, and let every vertex reach a labelled one. (Reduction) If every labelled vertex is among the kept vertices, the call of regression_tikhonov on the Kron reduction of G, with the kept vertices' measurements and labels and the same tau, succeeds, as does the call on G, and both give the same prediction at every kept vertex, for every tau >= 0 (tau = 0 included) and every number of measurement columns: eliminating unlabelled vertices loses nothing. (Parts) If no edge joins a set of vertices to the others (a connected component or a union of components), the subgraph of that set, in any order of its vertices, predicts on its own what the whole graph predicts there.",
  "all graphs with non-negative weights, masks of which every vertex reaches a labelled one, kept sets containing the labels or isolated sets in any order, parameters tau, measurements of any number of columns, and solver answers that solve their system",
  "a test compares one graph with one reduction up to rounding; the equality is a fact about every graph, mask, kept set and parameter",
  ["pygsp/learning.py:regression_tikhonov","pygsp/reduction.py:kron_reduction",G+":Graph.subgraph"])

p("C112","How predictions depend on tau",
  "Let G have non-negative weights and a combinatorial Laplacian, with every vertex reaching a label, and compare regression_tikhonov on the same measurements with two values of tau >= 0. At every vertex the two predictions differ by at most |tau' - tau| D r, where r is the range of the labels and D the largest total weight of the edges at a labelled vertex, and (tau > 0) by at most |tau' - tau|/tau r. So the prediction is uniformly continuous in tau, down to tau = 0 where another code path (an interpolation) answers: the interpolation is the limit as tau tends to 0. On a connected graph the squared distance of any prediction to the mean of the labels is at most 2 V / (tau e[1])^2, V the sum of the squared distances of the labels to their mean: the prediction tends to that mean as tau grows.",
  "all graphs with non-negative weights, masks of which every vertex reaches a labelled one, measurements of any number of columns, pairs of parameters tau >= 0, solver answers that solve their system",
  "limits and bounds for every parameter; a test sees finitely many values of tau on one graph, and the two code paths only at isolated points",
  ["pygsp/learning.py:regression_tikhonov"])

p("C113","Adding, removing and leaving out labels",
  "regression_tikhonov on a graph with non-negative weights and a combinatorial Laplacian, every vertex reaching a label. Adding labels whose measurements are the values already predicted there changes no prediction (any tau >= 0); for tau > 0, dropping labels whose measurements are met exactly changes none either. With tau = 0, the Dirichlet energy of the prediction from more labels is that from fewer plus the energy of their difference, so adding labels never lowers it. Leaving out one label i moves the prediction at every vertex v by u(v) times (measurement at i minus the prediction at i without it), where u, between 0 and 1, is the prediction from the measurement 1 at i and 0 at the other labels; for tau > 0, u(i) < 1 and the leave-one-out error at i is the residual at i divided by 1 - u(i): cross-validation needs no refit.",
  "all graphs with non-negative weights, masks and larger masks of which every vertex reaches a labelled one, left-out labels, parameters tau, measurements of any number of columns, solver answers that solve their system",
  "identities between calls with different masks, for every graph, mask, measurement and parameter",
  ["pygsp/learning.py:regression_tikhonov"])

p("C114","Classes can be renamed, merged and predicted one at a time",
  "classification_tikhonov on a graph with non-negative weights and a combinatorial Laplacian, every vertex reaching a label. If the classes of the labels are replaced by a function f of them, the logit of a class k becomes the sum of the logits of the classes that f sends to k: renaming classes renames the columns, merging classes adds them. The column of a class is what regression_tikhonov answers for its indicator (one class against the rest gives the multi-class logits). The logit of a class at a vertex is positive iff a path leads from the vertex to a label of that class (for tau = 0: a path through no other label), and equal to 1 iff every label so reached has that class.",
  "all graphs with non-negative weights, masks of which every vertex reaches a labelled one, labels, functions of the classes, tau >= 0, solver answers that solve their systems",
  "relations between calls on different labels, for every graph, mask, labelling and function of the classes",
  ["pygsp/learning.py:classification_tikhonov","pygsp/learning.py:regression_tikhonov"])

p("C115","The simplex classifier has the same answer as the plain one",
  "On a graph with non-negative weights and a combinatorial Laplacian whose every vertex reaches a label, with tau > 0: the logits of classification_tikhonov minimise the objective of classification_tikhonov_simplex over all matrices, already lie on the simplex, and are its only minimiser there, so the constraint is never active; both functions use the same number of classes. The fixed points of the projected-gradient iteration are exactly these logits. From any starting point and with lmax at least the largest eigenvalue, the iteration approaches them geometrically without acceleration and in O(1/k^2) squared distance with acceleration, at a rate that depends on the graph, the mask and tau only; wherever one class has the largest logit, the iterates end up predicting that class for ever.",
  "all graphs with non-negative weights, masks of which every vertex reaches a labelled one, labels, tau > 0, upper bounds of the largest eigenvalue, starting points and iteration counts",
  "uniqueness of a minimiser and convergence of an infinite iteration, for every graph, labelling and starting point",
  ["pygsp/learning.py:classification_tikhonov_simplex","pygsp/learning.py:classification_tikhonov"])

open('/verif/properties.jsonl','w').write(''.join(json.dumps(x)+'\n' for x in P))
