{"id": "C01", "title": "Keyword lookup finds exactly the first matching data line", "statement": "Looking a keyword up in the input returns the first line, in file order and inside the requested line window, that is not a %-comment line and contains the keyword ignoring case; if there is none the program exits with an error, or yields the empty string when the keyword is optional.", "quantifier": "every list of input lines, every keyword, every line window, optional or not", "why_tests_cant": "the number of files, positions of comment lines and windows is unbounded; a test fixes one file", "anchors": ["Backbone/IO/Input.cpp:192-224 findKeyword"]}
{"id": "C02", "title": "Normalising the input never changes its words", "statement": "Reading the file collapses whitespace and strips leading blanks; for every line the sequence of whitespace separated words before and after is the same, no two consecutive whitespace characters remain, and doing it twice is the same as once.", "quantifier": "every line of text", "why_tests_cant": "strings are unbounded; tests use the handful of lines in inputs/", "anchors": ["Backbone/IO/Input.cpp:54-77 storeInput", "Backbone/IO/Input.cpp:152-158 removeExtraSpaces"]}
{"id": "C03", "title": "Inline comments never reach the parameters", "statement": "The parameters extracted from a line are exactly the whitespace separated words of the part before the first %, whatever follows the %.", "quantifier": "every line, every comment text", "why_tests_cant": "quantifies over all comment texts", "anchors": ["Backbone/IO/Input.cpp:226-240 splitLine"]}
{"id": "C04", "title": "A material gets its own data", "statement": "The data read for a material come from the lines of that material's own block (from its heading to the next material heading): a missing entry is reported instead of being taken from another material, and a material whose name is a prefix of another name is not confused with it.", "quantifier": "every input file, every set of material names and block order", "why_tests_cant": "depends on relation between names and on absent lines, an unbounded space of files", "anchors": ["Backbone/IO/Input.cpp:160-190 findBlock", "Backbone/IO/Input.cpp:437-473 setMaterialProperties", "Backbone/IO/Input.cpp:495-542 setXS"]}
{"id": "C05", "title": "Commented text cannot act as a keyword", "statement": "Text after a % on a data line has no influence on which line a keyword lookup selects.", "quantifier": "every file and every inline comment text", "why_tests_cant": "quantifies over all comment contents", "anchors": ["Backbone/IO/Input.cpp:192-224 findKeyword"]}
{"id": "C06", "title": "Mesh boundaries are a partition of the described geometry", "statement": "For a mesh of regions (count, thickness, material) with positive counts and thicknesses, the cell boundaries start at 0, strictly increase, number one more than the total count, hit every region interface exactly at the cumulated thickness, are equally spaced inside a region, and end at the total thickness.", "quantifier": "every list of regions, any length, any counts and thicknesses", "why_tests_cant": "unbounded number of regions and cells; off-by-one at region changes", "anchors": ["Backbone/IO/Input.cpp:334-406 setMesh", "Backbone/Datamodel/Mesh.cpp:17-34 setBoundaries"]}
{"id": "C07", "title": "Every mesh cell gets the material of the region it lies in", "statement": "After reading the mesh, cell number m has the material of the unique region whose cumulated count interval contains m, and there are as many materials as cells.", "quantifier": "every list of regions and every cell", "why_tests_cant": "unbounded sizes", "anchors": ["Backbone/IO/Input.cpp:334-406 setMesh"]}
{"id": "C08", "title": "Malformed mesh descriptions are rejected, not mis-executed", "statement": "A mesh line whose words do not form complete (count, thickness, material) triples, or with a zero count, is rejected with an error rather than causing out-of-bounds access or a NaN boundary.", "quantifier": "every mesh line", "why_tests_cant": "tests only contain well-formed meshes", "anchors": ["Backbone/IO/Input.cpp:334-406 setMesh"]}
{"id": "C09", "title": "Compact parameter lists expand as written", "statement": "A list of values with only floating literals is taken verbatim; a list of (value, count) pairs expands to each value repeated count times in order; a list of (count, span) pairs expands to the ramp 0, ..., sum of spans with sum of counts plus one points, equally spaced inside each span.", "quantifier": "every list of words of the three shapes, any lengths and counts", "why_tests_cant": "unbounded lists", "anchors": ["Backbone/IO/Input.cpp:656-751 setManyParameters"]}
{"id": "C10", "title": "Every parameter list is either expanded or rejected", "statement": "For every list of words, expanding a temperature, heat source, time or reactivity list either gives a list or reports an error; it never reads or writes out of bounds.", "quantifier": "every list of words", "why_tests_cant": "tests only contain well-formed lists", "anchors": ["Backbone/IO/Input.cpp:656-751 setManyParameters", "Utilities/additionalPrintFuncs.cpp:350-379 isFloat"]}
{"id": "C11", "title": "Number and word classification is sound", "statement": "A word classified as an integer consists of digits only, as a string of letters only, and as a float has the shape digits '.' digits (with sign and exponent as documented); no word is both integer and string; classification is defined for every word.", "quantifier": "every string", "why_tests_cant": "all strings", "anchors": ["Utilities/additionalPrintFuncs.cpp:350-415 isFloat isInteger isString"]}
{"id": "C12", "title": "Solver list is parsed faithfully and coupling is added exactly when needed", "statement": "The solvers run are those named on the solvers line, in order, ignoring case, plus a final coupled one exactly when at least two are named; an unknown name ends the program with an error.", "quantifier": "every list of words", "why_tests_cant": "unbounded lists of names", "anchors": ["Backbone/IO/Input.cpp:242-298 setSolvers"]}
{"id": "C13", "title": "Boundary data reaching the solvers has the arity the solvers index", "statement": "After the solver properties have been read for a neutronic solver on a slab two albedos are stored, otherwise one, so that the solver never indexes past the stored albedos.", "quantifier": "every input file accepted by the reader", "why_tests_cant": "depends on word counts of arbitrary lines", "anchors": ["Backbone/IO/Input.cpp:767-960 setSolverProperties", "Diffusion/BaseDiffusionCode.cpp:109-170 applyBoundaryConditions"]}
{"id": "C14", "title": "Sections are read exactly for the solvers that need them", "statement": "Which groups of input are read (mesh and geometry, cross sections, kinetics, conductivity, source, coupling relaxation) and from which solver section is a function of the requested solver set only; every solver in the list has its own section read.", "quantifier": "every solver list and input file", "why_tests_cant": "combinatorial set of solver lists", "anchors": ["Backbone/IO/Input.cpp:79-150 readData"]}
{"id": "C15", "title": "Command line contract", "statement": "The program proceeds only with exactly three arguments, which are stored as input path, output path and log level; any other number ends it with an error.", "quantifier": "every argument vector", "why_tests_cant": "all argument counts", "anchors": ["Backbone/IO/Input.cpp:22-46 getArguments"]}
{"id": "C16", "title": "Tolerant comparisons form a consistent order", "statement": "Equal, strictly greater and strictly lower within tolerance are pairwise exclusive, antisymmetric under swap, monotone, and exactly one of them holds outside the tolerance boundary; the non-strict versions are reflexive.", "quantifier": "every pair of numbers, real and IEEE double", "why_tests_cant": "dense domain; the failures occur only at large magnitudes or exactly on the boundary", "anchors": ["Utilities/numeric_tools.h:47-81 is_equal is_greater is_greater_equal is_lower is_lower_equal"]}
{"id": "C17", "title": "Vector arithmetic is total and elementwise", "statement": "Adding or subtracting two vectors gives the elementwise result when the lengths agree and raises length_error otherwise; scaling is elementwise; dividing raises overflow_error exactly when the divisor is zero within tolerance; in-place and out-of-place forms agree.", "quantifier": "all vectors of any length and all scalars", "why_tests_cant": "unbounded lengths", "anchors": ["Utilities/numeric_tools.h:83-178 operators"]}
{"id": "C18", "title": "Polynomial product evaluates to the product of evaluations", "statement": "For non-empty coefficient lists the product list has length m+n-1 and its value at every point is the product of the values.", "quantifier": "all coefficient lists and all points", "why_tests_cant": "unbounded degree, all points", "anchors": ["Utilities/numeric_tools.cpp:72-85 multiply_poly"]}
{"id": "C19", "title": "Product of linear factors has exactly the requested roots", "statement": "The list built from a_1..a_n represents (a_1+x)...(a_n+x): it is monic of degree n and vanishes at x exactly when x=-a_i for some i; leaving factor i out gives the product of the others.", "quantifier": "all lists and all points", "why_tests_cant": "unbounded degree", "anchors": ["Utilities/numeric_tools.cpp:87-113 prod_poly prod_poly_i"]}
{"id": "C20", "title": "Temperature laws are evaluated as polynomials", "statement": "A law with coefficients c_0..c_n evaluates at x to sum c_i x^i, an empty law to 0; adding laws adds values; the shifted evaluation ends with an error when the rounded shift is negative.", "quantifier": "all coefficient lists and points", "why_tests_cant": "unbounded degree", "anchors": ["Utilities/PolynomialFunction.cpp calc"]}
{"id": "C21", "title": "Tridiagonal solver solves the system", "statement": "For a tridiagonal system whose elimination pivots are non-zero, the vector returned satisfies every equation.", "quantifier": "all sizes and coefficients", "why_tests_cant": "existing tests use a constant upper diagonal only", "anchors": ["Utilities/numeric_tools.cpp:136-164 tridiag_solver"]}
{"id": "C22", "title": "Diagonal dominance warning is exact", "statement": "The warning is printed at most once, and printed exactly when some row violates weak diagonal dominance by more than the tolerance.", "quantifier": "all square matrices", "why_tests_cant": "unbounded matrices", "anchors": ["Utilities/numeric_tools.cpp:24-46 diagonalDominanceCheck"]}
{"id": "C23", "title": "Source iteration never returns an unconverged multiplication factor", "statement": "If the power iteration returns, at most the allowed number of iterations was executed and the last relative change of the multiplication factor was below the accuracy; otherwise the program ends with an error; the returned flux has unit sum of absolute values.", "quantifier": "all matrices, all solvers of linear systems, accuracies and iteration limits", "why_tests_cant": "unbounded iteration counts", "anchors": ["Utilities/numeric_tools.cpp:194-259 sourceIteration"]}
{"id": "C24", "title": "Source iteration returns an eigenpair at a fixed point", "statement": "When the returned flux is parallel to the previous iterate, the returned pair satisfies M phi = F phi / k; the stopping test is only meaningful against an iterate, never against the initial guess.", "quantifier": "all matrices and accuracies", "why_tests_cant": "depends on limits of iterations", "anchors": ["Utilities/numeric_tools.cpp:194-259 sourceIteration"]}
{"id": "C25", "title": "Positive problems give a positive flux and factor", "statement": "If the loss operator has a non-negative inverse and the production operator is non-negative and does not vanish on the iterates, all iterates have non-negative flux and positive multiplication factor.", "quantifier": "all sizes and all such operators, every iteration count", "why_tests_cant": "invariant over unboundedly many iterations", "anchors": ["Utilities/numeric_tools.cpp:194-259 sourceIteration"]}
{"id": "C26", "title": "Harmonics are reported sorted, positive, normalised and paired", "statement": "The eigenmodes reported are exactly the eigenpairs whose inverse eigenvalue is positive beyond tolerance, in non-increasing order, each vector still attached to its own value, scaled to unit sum of absolute values with non-negative sum; a complex eigenvalue ends the run with an error.", "quantifier": "all spectra of any size", "why_tests_cant": "unbounded size and all orders", "anchors": ["Utilities/numeric_tools.cpp:261-321 GeneralizedEigenSolver sortEigenmodes hasImagValues", "Utilities/eigenmodesResults.h"]}
{"id": "C27", "title": "An eigenvalue run always ends in a report or an error message", "statement": "Whatever the spectrum, the eigenmode calculation either reports at least one mode or exits with an error.", "quantifier": "all spectra", "why_tests_cant": "the empty case is never in the tests", "anchors": ["Utilities/eigenmodesResults.h", "Utilities/numeric_tools.cpp:261-311"]}
{"id": "C28", "title": "Cell volumes partition the body", "statement": "For increasing boundaries starting at 0 the volumes are positive and sum to the volume of the whole slab, cylinder or sphere; centimetre values are the metre values times the cube (or power matching the geometry) of 100.", "quantifier": "all meshes of any size in the three geometries", "why_tests_cant": "unbounded cells", "anchors": ["Backbone/Datamodel/Slab.cpp", "Backbone/Datamodel/Cylinder.cpp", "Backbone/Datamodel/Sphere.cpp", "Backbone/Datamodel/Mesh.cpp:36-74"]}
{"id": "C29", "title": "External surface is the surface at the last boundary in the requested unit", "statement": "The external surface equals the last entry of the surfaces in the same unit, for every geometry and unit, and scales with 100^2 (or the power matching the geometry) between metre and centimetre.", "quantifier": "all meshes, three geometries, both units", "why_tests_cant": "all radii", "anchors": ["Backbone/Datamodel/Sphere.cpp externalSurface", "Backbone/Datamodel/Cylinder.cpp", "Backbone/Datamodel/Slab.cpp"]}
{"id": "C30", "title": "Cell sizes, mid points and boundaries are consistent", "statement": "Cell sizes are positive and sum to the total thickness; every mid point lies strictly inside its cell.", "quantifier": "all meshes", "why_tests_cant": "unbounded cells", "anchors": ["Backbone/Datamodel/Mesh.cpp:143-161,199-214"]}
{"id": "C31", "title": "Temperature units round-trip", "statement": "Kelvin temperatures are the Celsius ones plus 273.15 for every cell; reading back after setting gives the same values, and setting fewer values leaves the other cells unchanged.", "quantifier": "all temperature lists and meshes", "why_tests_cant": "unbounded lists", "anchors": ["Backbone/Datamodel/Mesh.cpp:76-141"]}
{"id": "C32", "title": "Per-cell nuclear data are the material laws at the cell temperature", "statement": "The (group, cell) entry of every reported cross-section table is the law given in the input for that material and group, evaluated at that cell's temperature, and the (from, to, cell) entry of the scattering table is the law given on the input line (from, to).", "quantifier": "all numbers of cells and groups, all laws and temperatures", "why_tests_cant": "unbounded sizes; index layout", "anchors": ["Backbone/Datamodel/Mesh.cpp:216-343", "Backbone/Datamodel/Material.cpp", "Backbone/IO/Input.cpp:495-578"]}
{"id": "C33", "title": "Flux storage round-trips", "statement": "A flux vector stored by group-major order is returned by the accessors at (group, cell, mode) unchanged; storing one mode or many, forward or adjoint, does not disturb the other direction.", "quantifier": "all sizes and vectors", "why_tests_cant": "index layout for unbounded sizes", "anchors": ["Backbone/Datamodel/Mesh.cpp:345-431"]}
{"id": "C34", "title": "Heat conduction system is locally conservative in each row", "statement": "Without boundary terms every row of the conduction matrix sums to zero, off-diagonal entries are non-positive and couple only neighbours, so a uniform temperature carries no heat.", "quantifier": "all meshes with at least two cells, all positive conductivities", "why_tests_cant": "unbounded cells", "anchors": ["Heat/BaseHeatCode.cpp:7-85"]}
{"id": "C35", "title": "Heat leaving one cell enters its neighbour", "statement": "The heat flow the system assigns to an interface is the same seen from both sides, hence the summed equations balance total heat source against heat leaving through the boundaries.", "quantifier": "all meshes, conductivities and temperatures", "why_tests_cant": "unbounded cells, non-uniform meshes not in tests", "anchors": ["Heat/BaseHeatCode.cpp:7-144"]}
{"id": "C36", "title": "Interface conductivity is the series resistance of the two half cells", "statement": "The thermal resistance used between two cell centres equals the sum of the resistances of the two half cells.", "quantifier": "all cell sizes and conductivities", "why_tests_cant": "tests use equal cell sizes around material changes", "anchors": ["Heat/BaseHeatCode.cpp:21-42 getInterfaceThermalConductivities"]}
{"id": "C37", "title": "Heat boundary rows implement A*T + B*q = C", "statement": "The boundary terms added to the first and last equations are exactly those obtained by eliminating the surface temperature from A*Ts + B*q = C with q the flow entering through the half cell, for the non-degenerate coefficients; A=0 with C=0 gives an insulated face.", "quantifier": "all coefficients, cells and geometries", "why_tests_cant": "dense parameter space", "anchors": ["Heat/BaseHeatCode.cpp:87-144 applyBoundaryConditions", "Backbone/Datamodel/SolverData.cpp"]}
{"id": "C38", "title": "Temperatures obey the maximum principle and are unique", "statement": "With fixed-temperature or convective boundaries and no heat source every temperature lies between the boundary temperatures; with non-negative sources none is below the lowest; the system has at most one solution.", "quantifier": "all meshes, conductivities, sources and boundary data", "why_tests_cant": "universally quantified over meshes; order theoretic", "anchors": ["Heat/BaseHeatCode.cpp"]}
{"id": "C39", "title": "The heat solver never reports unconverged temperatures", "statement": "If the temperature iteration returns, the last change of every cell temperature was below the accuracy; otherwise the program exits with an error.", "quantifier": "all iteration histories including non-finite values", "why_tests_cant": "NaN histories and unbounded iterations", "anchors": ["Heat/HeatSolver.cpp:10-55 solve"]}
{"id": "C40", "title": "Relaxation interpolates", "statement": "The relaxed field is, cell by cell, a convex combination of old and new for a parameter in [0,1], equals new for 1 and old for 0, and preserves any linear functional on which both agree.", "quantifier": "all fields and parameters", "why_tests_cant": "unbounded cells", "anchors": ["Heat/HeatSolver.cpp:57-68", "Diffusion/DiffusionSolver.cpp:45-56", "CPM/SpectrumSolver.cpp"]}
{"id": "C41", "title": "Diffusion operator: symmetric, conservative, right sign", "statement": "Before scattering is added, the one-group operator couples only neighbours with non-positive symmetric entries, and each row sums to removal times volume plus the boundary leakage term, which is zero for a reflective and non-negative for any physical albedo.", "quantifier": "all meshes of at least two cells, coefficients and albedos in [0,1]", "why_tests_cant": "unbounded cells", "anchors": ["Diffusion/BaseDiffusionCode.cpp:66-170"]}
{"id": "C42", "title": "Periodic boundaries conserve neutrons", "statement": "With periodic boundaries on a slab the operator is symmetric and each row sums to removal times volume: what leaves on one side enters on the other.", "quantifier": "all slab meshes", "why_tests_cant": "tests use symmetric meshes only", "anchors": ["Diffusion/BaseDiffusionCode.cpp:109-170 applyBoundaryConditions"]}
{"id": "C43", "title": "Multigroup loss operator has every group transfer in its place", "statement": "The entry of the loss operator from (group g', cell i) to (group g, cell i) is minus scattering g' to g times volume for g different from g', for every pair of groups; blocks of different cells couple only within a group.", "quantifier": "all numbers of groups and cells", "why_tests_cant": "modular index arithmetic over unbounded sizes", "anchors": ["Diffusion/ForwardDiffusionCode.cpp:7-33 calcMMatrix"]}
{"id": "C44", "title": "Fission operator is spectrum times production", "statement": "The production operator entry from (g', i) to (g, j) is chi_g nu Sigma_f,g' V_i when i=j and zero otherwise.", "quantifier": "all numbers of groups and cells", "why_tests_cant": "block copies in place over unbounded sizes", "anchors": ["Diffusion/ForwardDiffusionCode.cpp:35-81 calcFMatrix"]}
{"id": "C45", "title": "The adjoint problem is the transpose of the forward problem", "statement": "The adjoint loss and production operators are the exact transposes, entry by entry and bit for bit, of the forward ones for albedo boundaries, hence have the same eigenvalues.", "quantifier": "all meshes, groups and data", "why_tests_cant": "tests compare a few printed fluxes", "anchors": ["Diffusion/AdjointDiffusionCode.cpp", "Diffusion/ForwardDiffusionCode.cpp"]}
{"id": "C46", "title": "Neutron balance of a diffusion eigenpair", "statement": "Summing the equations of an eigenpair: total fission production divided by k equals total absorption plus leakage through the boundaries, scattering cancelling.", "quantifier": "all meshes, groups and eigenpairs", "why_tests_cant": "algebraic identity over unbounded sums", "anchors": ["Diffusion/BaseDiffusionCode.cpp", "Diffusion/ForwardDiffusionCode.cpp"]}
{"id": "C47", "title": "Diffusion problems are well posed", "statement": "With positive removal the loss operator of one group has a unique solution for every source, and non-negative sources give non-negative fluxes.", "quantifier": "all meshes and coefficients", "why_tests_cant": "order theoretic over unbounded sizes", "anchors": ["Diffusion/BaseDiffusionCode.cpp:86-170"]}
{"id": "C48", "title": "Power is normalised to the requested thermal power", "statement": "The reported power distribution is proportional to the fission rate and sums to the requested thermal power; the heat source densities handed to the heat solver integrate to it.", "quantifier": "all fluxes with non-zero fission rate, all meshes", "why_tests_cant": "unbounded sums", "anchors": ["Diffusion/BaseDiffusionCode.cpp:7-48", "CPM/BaseSpectrumCode.cpp:147-189"]}
{"id": "C49", "title": "Coupled iterations preserve the total power", "statement": "After every iteration of a coupled run, relaxed or not, the heat sources stored in the mesh integrate to the requested thermal power.", "quantifier": "all iteration counts and relaxation parameters", "why_tests_cant": "invariant over histories", "anchors": ["Backbone/Datamodel/DoubleCalculation.cpp", "Diffusion/DiffusionSolver.cpp", "CPM/SpectrumSolver.cpp"]}
{"id": "C50", "title": "Optical distance between slab cells", "statement": "The optical thickness used between two slab cells is the sum over the cells strictly between them of cross section times thickness, zero for neighbours; the entry of a cell with itself is its own thickness.", "quantifier": "all numbers of cells and cross sections", "why_tests_cant": "in-place two-pass updates over unbounded sizes", "anchors": ["CPM/SlabSpectrumCode.cpp:13-56 calcTracks"]}
{"id": "C51", "title": "Collision probabilities satisfy reciprocity", "statement": "V_i Sigma_i P_ij = V_j Sigma_j P_ji for every pair of cells, in slab, cylinder and sphere, before and after the albedo correction.", "quantifier": "all meshes, cross sections, transport kernels", "why_tests_cant": "unbounded sizes", "anchors": ["CPM/SlabSpectrumCode.cpp:58-168", "CPM/CylSpectrumCode.cpp:55-240", "CPM/SphSpectrumCode.cpp:60-243"]}
{"id": "C52", "title": "Neutron conservation of collision probabilities in vacuum", "statement": "One minus the sum of the collision probabilities from a cell equals the escape probability given by the kernel difference at the outer boundary: nothing is lost or created inside.", "quantifier": "all meshes and cross sections, any transport kernel", "why_tests_cant": "telescoping over unbounded sizes", "anchors": ["CPM/SlabSpectrumCode.cpp:58-96", "CPM/CylSpectrumCode.cpp:55-168", "CPM/SphSpectrumCode.cpp:60-171"]}
{"id": "C53", "title": "A perfectly reflecting boundary loses no neutron", "statement": "With albedo one the corrected collision probabilities from every cell sum to one; with albedo zero they are the vacuum ones; in between the sum is one minus the escape probability times (1-a)/(1-a Pss).", "quantifier": "all cells, cross sections and albedos", "why_tests_cant": "dense parameters", "anchors": ["CPM/SlabSpectrumCode.cpp:98-168", "CPM/CylSpectrumCode.cpp:170-240", "CPM/SphSpectrumCode.cpp:173-243"]}
{"id": "C54", "title": "The surface-to-surface probability is a probability", "statement": "The probability that a neutron entering through the surface leaves without collision, used by the albedo correction, is between 0 and 1, and becomes small for an optically thick body.", "quantifier": "all geometries and cross sections", "why_tests_cant": "depends on optical thickness range", "anchors": ["CPM/SlabSpectrumCode.cpp:98-168", "Backbone/Datamodel/Slab.cpp", "Backbone/Datamodel/Sphere.cpp"]}
{"id": "C55", "title": "Transport operators are assembled from the right blocks", "statement": "The loss operator is identity minus collision probabilities times scattering, and the production operator collision probabilities times chi nu Sigma_f, with entry ((g,i),(g',j)) = P^g_ij times the transfer g' to g of cell j.", "quantifier": "all cells and groups", "why_tests_cant": "modular indexing over unbounded sizes", "anchors": ["CPM/BaseSpectrumCode.cpp:41-145"]}
{"id": "C56", "title": "Inhour roots: the polynomial solved is the inhour equation", "statement": "A number different from all -lambda_i is a root of the polynomial handed to the root finder exactly when it satisfies rho = alpha s + sum beta_i s/(s+lambda_i); the polynomial has degree n+1.", "quantifier": "any number of delayed groups and parameters", "why_tests_cant": "unbounded number of groups, all s", "anchors": ["CORE/Kinetics.cpp:11-40 inHourEqRoots"]}
{"id": "C57", "title": "Inhour roots are real, distinct and as many as needed", "statement": "For positive generation time, distinct positive decay constants and positive fractions the inhour polynomial has exactly n+1 distinct real roots, so keeping only real parts loses nothing.", "quantifier": "any number of groups, any reactivity", "why_tests_cant": "real analysis argument for all parameters", "anchors": ["CORE/Kinetics.cpp:11-40", "Utilities/numeric_tools.cpp:116-134 poly_roots"]}
{"id": "C58", "title": "A kinetics step is the exact solution of point kinetics", "statement": "Power and precursor concentrations after a step of length t are the value at t of the solution of the point kinetics equations starting from the values before the step.", "quantifier": "any number of groups, reactivity, step length and prior state", "why_tests_cant": "continuous time; differential equation", "anchors": ["CORE/Kinetics.cpp:42-88 power"]}
{"id": "C59", "title": "Precursor deviation bookkeeping stays consistent", "statement": "After any history of steps the stored deviation of group i equals beta_i/alpha P - lambda_i C_i.", "quantifier": "all histories", "why_tests_cant": "invariant over unbounded histories", "anchors": ["CORE/Kinetics.h", "CORE/Kinetics.cpp:42-88"]}
{"id": "C60", "title": "A critical reactor at equilibrium stays at constant power", "statement": "Starting from the initial state, any history with zero reactivity keeps the power at its initial value.", "quantifier": "all histories and time grids", "why_tests_cant": "unbounded histories", "anchors": ["CORE/Kinetics.cpp:42-105"]}
{"id": "C61", "title": "Kinetics results do not depend on how a constant-reactivity interval is split", "statement": "Two consecutive steps with the same reactivity give the same power and precursors as a single step of the summed length.", "quantifier": "all step lengths and states", "why_tests_cant": "dense", "anchors": ["CORE/Kinetics.cpp:42-88"]}
{"id": "C62", "title": "Power history lines up with the requested times", "statement": "The history contains one power per requested time, the i-th being at time t_i after applying reactivity rho_i during (t_(i-1), t_i] with t_(-1)=0, and the clock ends at the last time.", "quantifier": "all lists", "why_tests_cant": "unbounded lists", "anchors": ["CORE/Kinetics.cpp:90-105", "CORE/KineticsSolver.cpp"]}
{"id": "C63", "title": "Kinetics input arity is checked", "statement": "Reactivities and times of different lengths, or decay constants and fractions of different lengths, are rejected before any computation.", "quantifier": "all inputs", "why_tests_cant": "all list lengths", "anchors": ["Backbone/IO/Input.cpp:626-654 setKineticsParameters", "CORE/KineticsSolver.cpp", "CORE/Kinetics.cpp"]}
{"id": "C64", "title": "Coupled convergence means what it says", "statement": "A coupled run returns only if, at its last iteration, the relative change of both main parameters is at most the accuracy; otherwise it exits with an error after the allowed number of iterations.", "quantifier": "all sequences of intermediate results", "why_tests_cant": "histories", "anchors": ["Backbone/Datamodel/DoubleCalculation.cpp", "Backbone/Datamodel/BaseCalculation.cpp getDifference"]}
{"id": "C65", "title": "The calculation run is determined by the solver list", "statement": "One solver gives a single (or ADS) calculation, two a coupled one, any other number an error.", "quantifier": "all solver lists", "why_tests_cant": "all lengths", "anchors": ["Backbone/Datamodel/BaseCalculation.cpp setCalculation"]}
{"id": "C66", "title": "ADS flux solves the driven subcritical problem on the modes", "statement": "The reported subcritical flux is the modal expansion whose residual of M phi = F phi + q is orthogonal to every adjoint mode.", "quantifier": "all meshes, numbers of groups and modes, sources", "why_tests_cant": "multigroup algebra", "anchors": ["Backbone/Datamodel/ADSCalculation.cpp", "Backbone/Datamodel/Mesh.cpp:433-480"]}
{"id": "C67", "title": "ADS flux is proportional to the source strength", "statement": "Multiplying the external source strength by a factor multiplies the flux by the same factor.", "quantifier": "all real strengths", "why_tests_cant": "dense", "anchors": ["Backbone/Datamodel/ADSCalculation.cpp"]}
{"id": "C68", "title": "Paths and log level are split losslessly", "statement": "A path with a separator is split into directory and name whose concatenation is the path; the log level accepted is exactly one of the documented names and anything else falls back to critical.", "quantifier": "all strings", "why_tests_cant": "all strings", "anchors": ["Backbone/IO/Output.cpp:26-129"]}
{"id": "C69", "title": "Vector dump prints every value once, in order", "statement": "The C++ vector dump of a list concatenates to the values in order separated by commas between braces.", "quantifier": "all lists", "why_tests_cant": "row-breaking arithmetic over unbounded sizes", "anchors": ["Utilities/additionalPrintFuncs.cpp:417-482 createCppVector"]}
{"id": "C70", "title": "Plots requested are plotted", "statement": "Every plot listed in the input whose data is non-empty is produced, with at most five modes, and nothing else.", "quantifier": "all plot lists and data", "why_tests_cant": "all data", "anchors": ["Utilities/plot.cpp", "Backbone/IO/Input.cpp:962-983 setPlots"]}
{"id": "C71", "title": "Collision probabilities are probabilities", "statement": "Every vacuum collision probability is between 0 and 1, and the probabilities from one cell sum to at most one.", "quantifier": "all meshes and positive total cross sections", "why_tests_cant": "continuum of optical thicknesses and unbounded numbers of cells; the sign depends on convexity of the kernel and on the error of the ray quadrature", "anchors": ["CPM/SlabSpectrumCode.cpp:58-96", "CPM/CylSpectrumCode.cpp:55-168", "CPM/SphSpectrumCode.cpp:60-171"]}
{"id": "C72", "title": "The ray quadrature integrates polynomials", "statement": "The eight tabulated nodes and weights integrate x times any polynomial of degree at most fifteen over (0,1) to ten digits relative to the size of its coefficients.", "quantifier": "all polynomials of degree at most fifteen", "why_tests_cant": "all polynomials", "anchors": ["CPM/BaseSpectrumCode.cpp:11-17"]}
{"id": "C73", "title": "The transport system can be solved", "statement": "When scattering removes at least as many neutrons as it produces in each cell and group, the loss operator of the transport solver is invertible and maps non-negative sources to non-negative fluxes.", "quantifier": "all meshes, groups, subcritical scattering", "why_tests_cant": "property of matrices of any size", "anchors": ["CPM/BaseSpectrumCode.cpp:64-95"]}
{"id": "C74", "title": "Collision probabilities do not depend on the unit of length", "statement": "Multiplying all lengths by a factor and dividing all total cross sections by it changes neither the collision probabilities nor the printed balance, in any geometry and with any albedo.", "quantifier": "all meshes, factors and albedos", "why_tests_cant": "all real factors", "anchors": ["CPM/SlabSpectrumCode.cpp", "CPM/CylSpectrumCode.cpp", "CPM/SphSpectrumCode.cpp", "Backbone/Datamodel/Mesh.cpp"]}
{"id": "C75", "title": "Both albedos of a slab are used by the transport solver", "statement": "For a slab the left and the right albedo of the input both influence the transport calculation, as they do in the diffusion one.", "quantifier": "all slabs and albedos", "why_tests_cant": "absence of influence for all inputs", "anchors": ["CPM/SlabSpectrumCode.cpp:98-168", "Backbone/IO/Input.cpp setSolverProperties"]}
{"id": "C76", "title": "Power and precursors stay positive", "statement": "From a state with positive power and precursor concentrations every reported power, and the state after any reactivity history, are positive.", "quantifier": "all histories with non-decreasing times, all reactivities and numbers of groups", "why_tests_cant": "unbounded histories over real values; needs an argument on the differential system", "anchors": ["CORE/Kinetics.cpp:42-105"]}
{"id": "C77", "title": "The sign of the reactivity decides whether the power rises", "statement": "After one step from the initial equilibrium the power is above, equal to or below the initial power exactly when the reactivity is positive, zero or negative.", "quantifier": "all reactivities, step lengths and groups", "why_tests_cant": "dense set of reactivities and step lengths", "anchors": ["CORE/Kinetics.cpp:42-88"]}
{"id": "C78", "title": "The power history scales with the initial power", "statement": "Multiplying the initial power by a factor multiplies every power of the history by it.", "quantifier": "all histories, factors and groups", "why_tests_cant": "dense and unbounded", "anchors": ["CORE/Kinetics.cpp:42-105", "CORE/Kinetics.h:11-22"]}
{"id": "C79", "title": "A calculation changes results only", "statement": "Whatever solvers are run, the geometry, the material laws, the requested power, the kinetics data and the external source of the reactor are the same after the calculation as before; a heat calculation leaves fluxes, heat sources and eigenvalues alone and a neutronic one leaves the temperatures alone.", "quantifier": "all reactors, solver lists, iteration counts and numerical libraries", "why_tests_cant": "frame condition over every field and every run", "anchors": ["Backbone/Datamodel/BaseCalculation.cpp", "Backbone/Datamodel/DoubleCalculation.cpp", "Backbone/Datamodel/ADSCalculation.cpp", "Backbone/Datamodel/Mesh.cpp"]}
{"id": "C80", "title": "The cross sections of the file reach the cells", "statement": "In an accepted neutronic problem every cell holds, for each group, the numbers that the section of its material lists for that group (fission neutrons, spectrum, fission, total and, for the diffusion solvers, diffusion coefficient), and for each pair of groups the scattering numbers listed for that pair, at the index of the pair.", "quantifier": "every accepted input file, cell, group and pair of groups", "why_tests_cant": "unbounded group and material counts; index arithmetic over nested loops and repeated reads", "anchors": ["Backbone/IO/Input.cpp:408-435 setMaterials", "Backbone/IO/Input.cpp:495-577 setXS, setMatrixXS", "Backbone/IO/Input.cpp:160-224 findBlock, findKeyword"]}
{"id": "C81", "title": "The properties of a solver's section reach that solver", "statement": "In an accepted file whose property lines start with their names, every solver holds the accuracy, iteration limit, energies, albedos, direction, eigenmodes, heat boundary conditions and relaxation of its own section, in the order of the line, with the number of albedos and boundary conditions its geometry asks for; the group number and the external source of the reactor are those of the sections. A line with a wrong number of values is silently ignored.", "quantifier": "every accepted input file and every solver in it", "why_tests_cant": "fifteen passes over an arbitrary solver list, each free to overwrite the others", "anchors": ["Backbone/IO/Input.cpp:79-150 readData", "Backbone/IO/Input.cpp:767-960 setSolverProperties"]}
{"id": "C82", "title": "Geometry, mesh, heat, kinetics and plot data reach the reactor", "statement": "In an accepted file the geometry, the material of every cell, the conductivities, the i-th temperature and heat source of cell i, the thermal power, the kinetics data and the plots are those the file lists. Too few temperatures leave cells at zero, too many write past the cells.", "quantifier": "every accepted input file", "why_tests_cant": "list lengths and expansions are unbounded", "anchors": ["Backbone/IO/Input.cpp:300-406 setGeometryKind, setThermalPower, setMesh", "Backbone/IO/Input.cpp:437-493 setMaterialProperties, setThermalConductivity", "Backbone/IO/Input.cpp:626-765 setKineticsParameters, setManyParameters, setTemperatures, setHeatSources", "Backbone/IO/Input.cpp:962-983 setPlots"]}
{"id": "C83", "title": "Every calculation reports what it computed", "statement": "At any trace level the log of a single calculation consists of the eigenvalues and modes held by the final reactor, when modes were computed, followed by the eigenvalue or the external-source sentence, the flux of every cell and the power sections of the final reactor (its temperatures for a heat solver); a kinetics calculation reports the powers it computed and nothing else; a coupled calculation reports the number of iterations done, which is between one and the limit, and then the final results of both solvers. The power sections appear exactly when some cell has a positive heat source.", "quantifier": "every trace level, number format, reactor, solver list and library answer for which the calculation ends normally", "why_tests_cant": "a report that shows values of an intermediate iteration, or of the wrong solver, differs only on some inputs", "anchors": ["Backbone/Datamodel/SingleCalculation.cpp", "Backbone/Datamodel/DoubleCalculation.cpp", "Backbone/Datamodel/AbstractSolver.cpp printResults, printEigenmodesResults", "CORE/KineticsSolver.cpp", "Backbone/Datamodel/BaseCalculation.cpp"]}
{"id": "C84", "title": "The lines of the log and their levels", "statement": "Lowering the trace level only adds lines, in the same order: at the critical level exactly the critical messages are written, at the trace level all of them. A matrix is written one coefficient per line, row after row. A tensor of square matrices is written page by page and row by row; a tensor with more columns than rows is read out of bounds.", "quantifier": "every log, pair of trace levels, matrix and tensor", "why_tests_cant": "all level pairs and all shapes", "anchors": ["Backbone/IO/Output.cpp:26-66, 131-147", "Utilities/additionalPrintFuncs.cpp:9-325"]}
{"id": "C85", "title": "The log shows the data that are used", "statement": "What an accepted file makes the program write while reading is what the program then holds: the geometry, the boundaries, volumes, materials and middle points of the mesh, the temperatures, heat sources and power, the kinetics data, and for every cell the cross sections, scattering matrix and conductivity listed in the section of its material, each cell once.", "quantifier": "every input file, number format and number of cells, groups and materials", "why_tests_cant": "all files and all sizes", "anchors": ["Backbone/IO/Input.cpp:300-406, 437-578, 626-765", "Utilities/additionalPrintFuncs.cpp:9-60"]}
{"id": "C86", "title": "The source iteration stops and finds the fundamental mode", "statement": "For data with positive absorption, albedos between 0 and 1 and scattering that links the groups where fission neutrons are born to groups that make fissions, a critical problem has exactly one non-negative mode up to scale; the source iteration stops for every accuracy above zero when it is allowed enough iterations, in slabs, cylinders and spheres for diffusion (forward and adjoint) and in slabs for transport; the multiplication factor and the flux it returns differ from the factor and the normalised flux of that mode by at most a constant times a ratio below one to the number of iterations made; and the forward and adjoint calculations tend to the same factor.", "quantifier": "all meshes, materials, numbers of cells and groups, accuracies and iteration limits", "why_tests_cant": "convergence of an iteration for all problems, and uniqueness of its limit, is not visible in any finite set of runs", "anchors": ["Utilities/numeric_tools.cpp:194-259", "Diffusion/DiffusionSolver.cpp:9-40", "CPM/SpectrumSolver.cpp:9-40"]}
{"id": "C87", "title": "With constant conductivities the heat calculation ends and is linear", "statement": "When no conductivity depends on the temperature and at least one face exchanges heat, the heat calculation succeeds as soon as two iterations are allowed; it changes only temperatures; its temperatures are the one solution of the conduction equations, whatever temperatures it started from; they are linear in the heat sources and the face references together, and more heat or a hotter reference makes no cell colder.", "quantifier": "all meshes, geometries, numbers of cells, conductivities, sources, face coefficients, accuracies above zero and iteration limits of at least two", "why_tests_cant": "termination, uniqueness and linearity over all meshes and sources cannot be enumerated", "anchors": ["Heat/HeatSolver.cpp:10-55", "Heat/BaseHeatCode.cpp:21-130"]}
{"id": "C88", "title": "Coupling changes nothing when nothing depends on the temperature", "statement": "When every cross section and every conductivity is a constant, the coupled calculation of neutrons and temperatures reports the same fluxes, powers and temperatures as the neutron calculation followed by the heat calculation, whatever the relaxation; it does not matter which of the two solvers comes first, up to the requested accuracy.", "quantifier": "all meshes, geometries, cells, groups, transport and forward diffusion, relaxation factors, accuracies below one and iteration limits of at least three", "why_tests_cant": "the fixed point of the relaxed loop has to be the uncoupled result for every mesh, power and relaxation", "anchors": ["Backbone/Datamodel/DoubleCalculation.cpp:10-67", "Backbone/Datamodel/BaseCalculation.cpp:38-58"]}
{"id": "C89", "title": "The log of the reading is complete and shows what is in effect", "statement": "When an input file is accepted, the lines logged while it is read are exactly: the solvers, the geometry and mesh if a solver needs them, one line for every property of every solver, and the data of the solvers in the order of the list. A solver property shown in the log is the one the solver then uses.", "quantifier": "all accepted input files, any solver lists, meshes, groups, materials and number formats", "why_tests_cant": "which lines appear, in which order and with which words depends on the solver list and on every section of the file", "anchors": ["Backbone/IO/Input.cpp:79-150", "Backbone/IO/Input.cpp:244-287", "Backbone/IO/Input.cpp:753-960"]}
{"id": "C90", "title": "The log file is the whole run, and the only file that changes", "statement": "A run that ends writes one log file under the given output name: what it started with, the files, everything read, the results at the requested level, and the end, and nothing left from an earlier run. A more verbose level only adds lines. No other file is changed, in particular not the input file.", "quantifier": "all disks, input files, names of the input and output file, levels, number formats and numerical libraries", "why_tests_cant": "the content of the file depends on the whole run, on the level and on what was on the disk before", "anchors": ["app/main.cpp:8-22", "Backbone/IO/Output.cpp:12-114", "Backbone/IO/Input.cpp:22-77"]}
{"id": "C91", "title": "A homogeneous reactor behind reflecting boundaries is an infinite medium", "statement": "With the same cross sections in every cell and boundaries that send everything back, the diffusion calculation settles on a flux that is the same in every cell and on the multiplication factor of the group equations without space, whatever the geometry, the mesh and the diffusion coefficients; the transport calculation of a slab settles on the same factor and the same spectrum; in every geometry the flat flux solves the transport equations. With one group the factor is production over absorption.", "quantifier": "all meshes, geometries, numbers of cells and groups, homogeneous physical cross sections, diffusion coefficients, accuracies and exact linear solvers", "why_tests_cant": "it compares two solvers and all meshes and geometries at once; a test sees one mesh and the rounding of one run", "anchors": ["Utilities/numeric_tools.cpp:194-259", "Diffusion/DiffusionSolver.cpp:9-40", "CPM/SpectrumSolver.cpp:9-40"]}
{"id": "C92", "title": "Absorption and leakage lower the multiplication factor, fission raises it", "statement": "For two diffusion calculations on the same cells: more collisions, less scattering, fewer fission neutrons and boundaries that send back less never raise the factor; they lower it when they take from a group that has neutrons and could use them. A homogeneous reactor never exceeds its infinite medium and falls short of it as soon as it leaks. With c times the fission neutrons the factor is c times as large and the flux the same. The same holds for transport calculations in slabs with the same total cross sections, where scattering turned into absorption lowers the factor.", "quantifier": "all meshes, geometries, numbers of cells and groups, pairs of physical data and albedos between 0 and 1", "why_tests_cant": "a statement about all pairs of reactors; a change may touch one cell and one group only", "anchors": ["Utilities/numeric_tools.cpp:194-259", "Diffusion/DiffusionSolver.cpp:9-40", "CPM/SpectrumSolver.cpp:9-40"]}
{"id": "C93", "title": "A smaller accuracy brings the factor in the log closer to that of the reactor", "statement": "The factor in the first line of the log is the one on which the source iteration stopped, and for every distance there is an accuracy below which a calculation that ends shows a factor within that distance of the factor of the reactor. The code keeps to it unless two factors in a row are equal: the iteration starts from one and compares only successive factors, so a homogeneous closed reactor whose cells have the volume 1 / removal is reported as exactly critical whatever its fission and whatever the accuracy.", "quantifier": "all physical diffusion problems with a chain reaction, all distances, accuracies, numbers of iterations, plots and exact linear solvers", "why_tests_cant": "a limit over all accuracies; a test compares one run with one reference value", "anchors": ["Utilities/numeric_tools.cpp:194-259", "Diffusion/DiffusionSolver.cpp:9-40", "CPM/SpectrumSolver.cpp:9-40"]}
{"id": "C94", "title": "Writing the same reactor the other way round gives the same answers", "statement": "Describing a slab from right to left (its cells in reverse order and its two boundary conditions exchanged), or numbering the energy groups differently, changes no answer of the diffusion or transport calculation: the factors, the end of the iteration, the flux of every cell and group and the heat source are the same, each found under its new index. The temperatures should be reversed with the slab too. The code keeps to it for diffusion, and for transport when both sides reflect alike: the transport solver reads the first albedo only. The temperatures are reversed for a uniform slab, but not where the conductivity changes from cell to cell, since the code takes for the face before the last cell the conductivity of that cell alone.", "quantifier": "all meshes with complete tables, all geometries for the numbering of the groups, all albedos, permutations of the groups, accuracies, numbers of iterations, exact linear solvers, and for the temperatures all admissible boundary conditions", "why_tests_cant": "compares all pairs of descriptions of one reactor; a test compares two runs", "anchors": ["Utilities/numeric_tools.cpp:194-259", "Diffusion/DiffusionSolver.cpp:9-40", "CPM/SpectrumSolver.cpp:9-40", "Heat/BaseHeatCode.cpp:7-144"]}
{"id": "C95", "title": "Rounding never turns a mesh inside out", "statement": "Computed in double precision, the boundaries of the mesh are finite, begin at zero and never decrease, whatever the thicknesses and counts. Each boundary is the exact one up to one rounding for each region and two more. A region whose cells are thicker than a few roundings of the whole has no empty cell. No cell has a negative volume, in a slab, cylinder or sphere, and the cell of a slab has volume zero only if its two sides coincide. Every cell should have a positive width; a cell much thinner than what lies before it has not.", "quantifier": "all lists of regions with positive counts below 2^31 - 1 cells in total and finite thicknesses from 0 to 2^900 (for the accuracy from 2^-900)", "why_tests_cant": "quantifies over all doubles and all numbers of regions and cells; a test tries a few meshes", "anchors": ["Backbone/IO/Input.cpp:334-406 setMesh", "Backbone/Datamodel/Mesh.cpp:17-34 setBoundaries"]}
{"id": "C96", "title": "How the input file is laid out does not matter", "statement": "Two input files that differ only in the case of letters, in how many spaces separate words or stand before a line, and in comment lines, give the same results and the same log file, or stop with the same message; no other file changes. Empty lines do not matter either when the first line with content does not begin a section. Empty lines anywhere, tabs instead of spaces and comments at the end of a line should not matter; they do.", "quantifier": "all pairs of files related that way, all arguments, and whatever the numerical libraries return", "why_tests_cant": "quantifies over all files and all ways of writing each; a test compares a few", "anchors": ["Backbone/IO/Input.cpp:54-77 storeInput", "Backbone/IO/Input.cpp:152-158 removeExtraSpaces"]}
{"id": "C97", "title": "The unit of length does not matter", "statement": "A diffusion calculation of the same reactor described in another unit of length (boundaries and diffusion constants times s, macroscopic cross sections over s) reports the same multiplication factor and the same fluxes after the same number of iterations, or fails to converge likewise; the heat source, in watts per unit of volume, is the same amount in the new unit.", "quantifier": "all meshes of two or more cells, materials, groups, albedos, periodic boundaries included, both directions, all factors s other than zero, all exact linear solvers", "why_tests_cant": "quantifies over all reactors and units; the failure needs cells whose volume times removal happens to be one", "anchors": ["Utilities/numeric_tools.cpp:194-259", "Diffusion/DiffusionSolver.cpp:9-40", "CPM/SpectrumSolver.cpp:9-40", "Heat/BaseHeatCode.cpp:7-144"]}
{"id": "C98", "title": "The unit of length does not matter for transport", "statement": "A transport calculation of the fundamental mode of the same reactor described in another unit of length (boundaries times s, macroscopic cross sections over s) solves the same linear systems, so it reports the same multiplication factor and the same fluxes after the same number of iterations, or fails to converge likewise; the heat source, in watts per unit of volume, is the same amount in the new unit.", "quantifier": "all slabs, cylinders and spheres, materials with positive total cross sections, groups, white albedos, all positive factors s, all exact linear solvers", "why_tests_cant": "quantifies over all reactors and units, and over every ray of every cell", "anchors": ["CPM/SpectrumSolver.cpp:8-34", "CPM/BaseSpectrumCode.cpp:20-189", "CPM/SlabSpectrumCode.cpp:13-168", "CPM/CylSpectrumCode.cpp:7-239", "CPM/SphSpectrumCode.cpp:11-242", "Utilities/numeric_tools.cpp:194-259"]}
{"id": "C99", "title": "The units of length and power do not matter for heat conduction", "statement": "A heat calculation of the same body described in other units of length and power (boundaries times s, conductivities times w/s, heat sources times w/s^3, boundary conditions likewise) reports the same temperatures after the same number of iterations, or fails to converge likewise.", "quantifier": "all slabs, cylinders and spheres, conductivities that depend on the temperature, boundary conditions, all positive s and w, all accuracies and iteration limits, all exact linear solvers", "why_tests_cant": "quantifies over all bodies, laws and pairs of units", "anchors": ["Heat/HeatSolver.cpp:10-55", "Heat/BaseHeatCode.cpp:7-144", "Backbone/Datamodel/Mesh.cpp:36-62"]}
{"id": "C100", "title": "The log gives every number to seven significant digits", "statement": "Whoever reads a number of the log file gets the double the program computed, up to five parts in ten million; exactly, when it has at most seven decimal digits; two numbers never change their order; an infinity or a NaN is not written as a number; and the text always fits the buffer it is printed to. So the line with the multiplication factor and the lines with the temperatures tell the stored results. Two different results can have the same text.", "quantifier": "all doubles, normal, subnormal and special; all calculations with one solver, all levels of the log", "why_tests_cant": "a test prints a few numbers; the claim is about all 2^64 of them and all exponents, carries and ties", "anchors": ["Utilities/additionalPrintFuncs.cpp:231-241", "Utilities/additionalPrintFuncs.cpp:325-335", "CPM/SpectrumSolver.cpp:51", "Diffusion/DiffusionSolver.cpp:62"]}
{"id": "C101", "title": "Only the cells of the mesh line matter, not the regions they are written in", "statement": "Two mesh lines that describe the same cells, that is the same widths and materials from the inside out, give the same reactor, the same map of zones and the same list of materials, however the cells are grouped into regions. In particular a region may be split at any of its inner boundaries. This holds for exact numbers; with doubles the outer boundary of a split region can be another double.", "quantifier": "all input files, all numbers of regions and cells, all widths and material names", "why_tests_cant": "a test compares a few ways to write a mesh; the claim is about all groupings of all meshes", "anchors": ["Backbone/IO/Input.cpp:334-406"]}
{"id": "C102", "title": "The reported powers do not depend on the units of time and reactivity or on the order of the delayed groups", "statement": "If a kinetics problem is written with another unit of time, another unit of reactivity or with its delayed neutron groups in another order, the calculation reports the same powers.", "quantifier": "all numbers of delayed groups and time steps, all positive unit factors, all reorderings, all data with positive, distinct decay constants", "why_tests_cant": "a test compares a few pairs of inputs with a tolerance; the claim is about all pairs that describe the same transient", "anchors": ["CORE/Kinetics.cpp:11-105", "CORE/KineticsSolver.cpp:5-21"]}
{"id": "C103", "title": "A coupled calculation of neutrons and temperatures does not depend on the unit of length", "statement": "If a reactor is written with another unit of length, and its cross sections, diffusion coefficients, conductivities and heat transfer coefficients with it, then every iteration of the coupled calculation gives the same multiplication factor, fluxes and temperatures and the power density in the new unit. The convergence test has the same outcome in every iteration, and if both calculations finish they report the same number of iterations and the same results. This holds for transport in every geometry and for diffusion in a slab, in both orders of the two solvers.", "quantifier": "all meshes, groups, temperature dependent cross sections and conductivities, boundary conditions, relaxation factors and accuracies, all positive unit factors, all numbers of iterations", "why_tests_cant": "a test compares two units for a few reactors with a tolerance, and each coupled iteration changes the cross sections of the next", "anchors": ["Backbone/Datamodel/DoubleCalculation.cpp:10-67", "Diffusion/DiffusionSolver.cpp", "CPM/SpectrumSolver.cpp", "Heat/HeatSolver.cpp:57-68"]}
{"id": "C104", "title": "From the text of the input file to the numbers at the end of the log file", "statement": "If the input file asks for point kinetics and gives the generation time, the initial power, the delayed neutron groups, the times and the reactivities, the program ends normally, changes no file but the output file, and the output file ends with the power, at the times of the file, of the solution of the point kinetics equations that starts in equilibrium. If it asks for the temperatures of one region with one conductivity and one heat source, the output file ends with the temperatures of the steady conduction equation with the boundary conditions of the file, at the centres of the cells, raised by the error of the discretisation. If it asks for diffusion in a slab of one region in one group with the same albedo on both faces, the output file ends with the factor and the fluxes the source iteration returned, of which the limits are those of C106, and with no power densities; or the program stops because the iterations of the file were not enough. After three or more iterations the factor in the log encloses that of the diffusion equation as in C107, and with more iterations than two plus the inverse of the accuracy the program does not stop. If the same file asks for all modes instead, the program does not stop and the output file ends with every standing wave of C110, if there is more than one, with its factor and its fluxes, and then the factor and the cosine of C106, with no error of an iteration, so that the distance to the factor of the diffusion equation is that of the cells alone.", "quantifier": "all input texts in any layout that the reader accepts, all numbers in them, all numbers of groups, times and cells, all verbosity levels and all contents of the disk", "why_tests_cant": "a test runs a few files; the claim joins the reader, the solver and the writer for every file", "anchors": ["app/main.cpp", "Backbone/IO/Input.cpp", "CORE/Kinetics.cpp", "Heat/HeatSolver.cpp", "Backbone/IO/Output.cpp", "Diffusion/DiffusionSolver.cpp", "Utilities/numeric_tools.cpp"]}
{"id": "C105", "title": "Temperatures of a uniform body against the differential equation", "statement": "For a slab, cylinder or sphere of equal cells with one constant conductivity and one heat source, the temperature reported for each cell is that of the solution of the steady conduction equation with the same boundary conditions at the centre of the cell, plus the heat source times the square of the cell width divided by 8, 16 or 24 times the conductivity. Without a heat source it is exact, and the error is four times smaller with cells half as wide.", "quantifier": "all geometries, numbers of cells from two up, widths, conductivities, heat sources and boundary conditions that fix the temperature level, all initial temperatures", "why_tests_cant": "a test compares a few meshes with the analytic solution within a tolerance and cannot tell a wrong factor at the wall from discretisation error", "anchors": ["Heat/HeatSolver.cpp:10-55", "Heat/BaseHeatCode.cpp"]}
{"id": "C106", "title": "Multiplication factor of a homogeneous slab against the differential equation", "statement": "For a slab of equal cells of one material in one group diffusion with the same albedo on both faces, the multiplication factor on which the iteration settles is production over absorption plus leakage, and the flux is a cosine symmetric about the middle. Compared with the diffusion equation of the slab, which has exactly one factor with a positive flux, the factor of the program is never lower, and exceeds it by at most the square of the cell width times a constant of the reactor; refining the mesh brings it down to the exact factor.", "quantifier": "all numbers of cells from two up, all cell widths, diffusion coefficients, total, scattering and fission cross sections with scattering below total, all albedos from 0 to 1, and all positive solutions of the differential equation", "why_tests_cant": "a test compares a few slabs with a tabulated factor within a tolerance and cannot tell a wrong albedo condition from discretisation error", "anchors": ["Diffusion/DiffusionSolver.cpp:9-40", "Diffusion/BaseDiffusionCode.cpp", "Diffusion/ForwardDiffusionCode.cpp", "Utilities/numeric_tools.cpp:194-259"]}
{"id": "C107", "title": "How far the factor in the log is from that of the reactor, and how many iterations it takes", "statement": "In one group diffusion with the same production in every cell, the factor reported after two or more iterations is never above that of the reactor, and asking for a smaller accuracy never lowers it. For a homogeneous slab the factor of the reactor is at most twice the one reported, and if the program stopped in the third or a later iteration it exceeds the one reported by a fraction of at most the square root of twice the accuracy, so that the reported factor, the accuracy and the width of the cells enclose the factor of the diffusion equation; two more iterations than the inverse of the accuracy are always enough. The exception is a program that stops in the first iteration: its factor has to be multiplied by the fission neutrons of a cell per unit of flux, because the iteration starts from a source of one and a flux of one in every cell.", "quantifier": "all geometries, meshes, materials and albedos with even production, all accuracies and iteration limits, all exact linear solvers; for the bounds all homogeneous slabs of two or more equal cells with any albedo from 0 to 1", "why_tests_cant": "a test compares one run with one reference within a tolerance that it chose; that the accuracy of the input bounds the error, and the inverse of the accuracy the iterations, is a statement about all reactors", "anchors": ["Utilities/numeric_tools.cpp:194-259", "Diffusion/DiffusionSolver.cpp:9-40", "Diffusion/BaseDiffusionCode.cpp", "Diffusion/ForwardDiffusionCode.cpp"]}
{"id": "C108", "title": "The two methods of solution agree", "statement": "A user who asks for all harmonics gets first the multiplication factor and the flux on which the source iteration of 'harmonics fundamental' settles, or the error that a factor is complex. No other mode in the list has a larger factor, and none but the first has the same. The results of the two methods come together geometrically with the number of iterations. In one group diffusion the error cannot occur, and modes with different factors are orthogonal when weighted with the fission neutrons they make.", "quantifier": "all loss matrices with a non-negative inverse and non-negative production matrices on which the source iteration settles, in particular all diffusion problems of C86, forward and adjoint, in all geometries, and transport in slabs; all factors above 10/2^52, all sorting routines that sort, all eigenvalue routines that return eigenpairs and every real eigenvalue", "why_tests_cant": "a test compares the two methods on the reactors it lists; that no harmonic, real or complex, overtakes the fundamental mode is a statement about all operators that the input can give", "anchors": ["Utilities/numeric_tools.cpp:261-325", "Utilities/numeric_tools.cpp:194-259", "Diffusion/DiffusionSolver.cpp:9-40"]}
{"id": "C109", "title": "Uranium has a density, a heat capacity and a conductivity at every temperature of the solid", "statement": "For every temperature between 273 K and melting at 1405 K the functions of Uranium give a positive density that falls with the temperature, a positive heat capacity and a conductivity that rises with it; outside they give zero.", "quantifier": "all temperatures", "why_tests_cant": "a test tries the temperatures it lists; the two at which the functions fail are points of the continuum, and monotonicity across the phases is about all pairs", "anchors": ["Backbone/Library/Uranium.cpp:27-104", "Utilities/numeric_tools.h:47-81"]}
{"id": "C110", "title": "The harmonics of a homogeneous slab are its standing waves, and none is missing", "statement": "For a homogeneous slab in one group with the same albedo on both faces, a diffusion calculation of all modes succeeds. Every mode it reports is a standing wave: a cosine that is even or a sine that is odd about the middle of the slab, with a wave number that meets the condition of the albedo at the faces, of norm one, with the factor of production over absorption plus the leakage of that wave. Every standing wave with a factor above the tolerance of the program is reported. Between reflecting faces the factors are those of the half waves that fit into the slab, one for each cell.", "quantifier": "all numbers of cells from two, all widths, albedos and cross sections, and every eigenvalue routine that finds the modes of its matrices, in whatever order and scale", "why_tests_cant": "a test compares a few factors of one slab with a table; that no mode is spurious and none is lost is about every slab and all of its modes", "anchors": ["Utilities/numeric_tools.cpp:261-311", "Diffusion/DiffusionSolver.cpp", "Utilities/eigenmodesResults.h"]}
