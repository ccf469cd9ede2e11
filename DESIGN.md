# Formal model of ALMOST in Rocq

## Method

* The model is written in Gallina, function by function, from the C++ in
  `/repo`. Every definition cites file and lines; a simplification is said in
  that comment.
* **Outcomes.** Fallible code lives in `res A := Ok a | Exit m | Throw m | UB m`.
  `Exit` is `exit(-1)` after an error message, `Throw` an uncaught C++
  exception, `UB` undefined behaviour (out-of-range index on `std::vector`,
  `Eigen` or `Tensor`, `front()` of an empty container, ...). Indices are `Z`, so
  `l - 1` with `l = 0` really is `-1` and out of range. Loops are
  `zfor lo hi body`, the C++ counting loop.
* **Numbers.** The numeric kernels are polymorphic in a type class `Num T`
  (operations and comparisons of C++ `double`). Instances: `R` (ideal
  arithmetic: rounding and overflow are not modelled), `Q` (to run
  the model in examples) and Flocq's `binary_float 53 1024` (IEEE double with
  NaN and infinities). A theorem quantified over every `Num` holds bit for bit
  for doubles; a theorem at `R` is about exact arithmetic.
* **Oracles.** The library calls (QR solve, eigen decomposition, sort,
  polynomial roots, exponential integral, Bickley function, `exp`, `sqrt`,
  `stod`, double to unsigned) are parameters. What a theorem needs from them is
  a hypothesis of that theorem, and an example or a theorem shows that the
  hypothesis can be met.
* If the faithful model violates the property the theorem is named
  `..._refuted`, with a witness, and what does hold is proved beside it
  (`..._partial`).

Files in `rocq/theories`: `Base.v` (outcomes, loops, numbers, matrices),
`NumR.v`, `NumQ.v`, `NumF.v` (the three instances), `Model*.v` the model only,
`Proofs*.v` and `BaseLemmas.v`, `LinAlg.v`, `Blocks.v`, `BlockLoops.v`,
`InHour.v`, `Modes.v`, `Positivity.v`, `Kernels.v`, `Quadrature.v`, `PowerMethod.v` the proofs and
the mathematics they need, `Props*.v` the property theorems, each with its
`Print Assumptions` and an `Example` meeting its hypotheses.

## Trusted base

* Coq 8.16.1's kernel, including its virtual machine (`vm_compute`).
* The transcription from C++ to `Model*.v`. Nothing links the two but the
  citations; every model file is short enough to be compared by eye.
* The axioms below, all from Coq's standard library (the real numbers,
  functional extensionality, excluded middle, choice). Flocq and Coquelicot are
  used for their definitions and lemmas; they add no axiom of their own.

`Print Assumptions` lists for the theorems of the manifest:

* none (closed under the global context):
  C01_keyword_lookup, C01_total, C02_idempotent, C02_normalisation,
  C03_covers, C03_inline_comment, C04_missing_entry_refuted,
  C04_own_entry_partial, C04_prefix_refuted,
  C05_comment_selects_line_refuted, C05_comments_partial, C07_cell_material,
  C08_malformed_partial, C08_malformed_refuted, C09_repeat, C09_verbatim,
  C100_fits, C10_expand_partial, C10_expand_refuted, C11_classes_refuted,
  C11_float, C11_integer, C11_not_both, C11_string_first_letter, C12_solvers,
  C12_unknown, C13_albedo_count_partial, C13_refuted, C14_required,
  C14_untouched, C15_command_line, C15_message_refuted, C17_add, C17_div,
  C17_mul, C17_slice, C17_sub, C23_first_converged_iterate,
  C31_heat_sources_round_trip, C31_temperatures_round_trip,
  C31_too_many_is_undefined, C32_cross_sections, C32_scattering_and_removal,
  C33_fluxes_round_trip, C33_fundamental_is_mode_zero,
  C33_total_fluxes_round_trip, C41_single_cell_undefined,
  C45_adjoint_is_transpose, C63_group_arity_refuted, C63_times_partial,
  C65_dispatch, C66_two_groups_refuted, C68_bare_name_refuted,
  C68_extension_removed, C68_levels, C68_paths_split, C69_short_refuted,
  C69_values_in_order, C70_distinct_files, C70_flux_plotted_partial,
  C70_nothing_else, C70_total_flux_plotted_partial,
  C70_values_plotted_partial, C75_second_albedo_refuted,
  C79_heat_leaves_neutronics, C79_input_unchanged,
  C79_neutronics_leave_temperatures, C80_cross_sections,
  C81_reactor_properties, C81_solver_properties, C81_value_count_refuted,
  C82_heat_data, C82_kinetics_data, C82_mesh_data, C82_plots,
  C82_temperature_count_refuted, C83_ads_report, C83_coupled_report,
  C83_kinetics_report, C83_single_report, C84_levels, C84_matrix_lines,
  C84_other_shapes_refuted, C84_square_tensor, C85_cell_order_refuted,
  C85_cells_shown, C85_conductivity_echo, C85_geometry_echo, C85_heat_echo,
  C85_initial_power_refuted, C85_kinetics_echo, C85_matrix_echo,
  C85_mesh_echo, C85_xs_echo, C89_in_effect_partial, C89_in_effect_refuted,
  C89_log, C90_files_partial, C90_input_lost_refuted, C90_more_verbose,
  C90_names_refuted, C90_old_files, C93_logged, C96_empty_line_refuted,
  C96_end_comment_refuted, C96_tab_refuted.
* `functional_extensionality_dep`:
  C96_empty_lines_partial, C96_layout.
* `functional_extensionality_dep`, `sig_forall_dec`:
  C09_ramp, C100_not_a_number, C108_agree, C109_kelvin_refuted, C109_outside,
  C109_transition_refuted, C109_uranium_partial, C16_meaning, C16_monotone,
  C16_reflexive, C16_swap, C16_trichotomy, C18_product_evaluates,
  C19_leave_one_out, C19_linear_factors, C20_additive, C20_polynomial_law,
  C20_shifted_law, C21_tridiag_solver_empty_refuted,
  C21_tridiag_solver_partial, C21_tridiag_solver_refuted,
  C21_tridiag_solver_solves_shifted, C22_dominance_warning,
  C22_negative_diagonal_warns, C23_unit_norm, C24_first_iteration_refuted,
  C24_fixed_point_is_eigenpair_partial, C24_flat_start, C24_residual,
  C25_positive_iterates, C25_positive_result, C26_complex_rejected,
  C26_modes_are_eigenpairs, C26_modes_normalised, C26_modes_reported,
  C27_no_positive_mode_is_undefined, C27_report_or_error_refuted,
  C30_cells_consistent, C30_uniform_mesh, C30_units, C32_law_is_polynomial,
  C37_special_cases, C40_length_mismatch_refuted,
  C40_relaxation_interpolates, C40_stored_fields, C41_currents_exist,
  C56_inhour_polynomial, C63_extra_fractions_counted,
  C70_zero_minimum_refuted, C83_power_shown, C91_one_group,
  C91_solvers_agree.
* `functional_extensionality_dep`, `sig_forall_dec`, `sig_not_dec`:
  C06_partition, C08_count_zero_refuted, C101_same_cells, C101_split,
  C103_diffusion, C103_transport, C107_rising, C108_diffusion,
  C108_first_mode, C108_one_group, C28_volumes_partition,
  C29_external_surface_partial, C29_sphere_cm_refuted, C29_surfaces,
  C34_rows_conservative, C35_interface_flow_partial,
  C35_interface_flow_refuted, C36_series_resistance_partial,
  C36_series_resistance_refuted, C37_boundary_rows,
  C38_insulated_slab_refuted, C38_maximum_principle, C38_unique_temperatures,
  C39_iteration_partial, C39_last_change_refuted, C41_data_available,
  C41_finite_volume_balance, C41_row_sums, C41_symmetric_neighbour_coupling,
  C42_periodic_conservation_refuted, C42_periodic_rows_partial,
  C42_periodic_symmetry, C42_two_cells_refuted, C43_group_transfers,
  C44_fission_operator, C46_neutron_balance, C47_well_posed,
  C48_diffusion_solve, C48_power_normalised, C48_spectrum_solve,
  C49_final_power, C49_power_kept, C50_curved_optical_distance,
  C50_slab_optical_distance, C51_reciprocity, C52_curved_conservation,
  C52_slab_conservation, C53_albedo_balance, C54_cylinder, C54_slab_value,
  C54_sphere_refuted, C55_transport_defined, C55_transport_operators,
  C57_roots_real_distinct, C64_compared, C64_convergence_partial,
  C64_no_convergence, C66_one_group_partial, C66_residual_partial,
  C67_fractions_refuted, C67_proportional_partial, C67_whole_part,
  C70_total_flux_refuted, C71_curved_partial, C74_unit_of_length,
  C83_ads_products, C86_diffusion, C86_diffusion_adjoint, C86_same_factor,
  C86_source_iteration, C87_constant_conductivity, C87_initial_temperatures,
  C87_monotone, C87_superposition, C88_fluxes_first,
  C88_temperatures_first_partial, C91_diffusion, C91_transport,
  C92_absorption_lowers, C92_below_infinite, C92_fission_raises,
  C92_leakage_lowers, C92_never_raises, C92_proportional,
  C93_accuracy_partial, C93_accuracy_refuted, C93_unit_cells, C94_groups,
  C94_heat_partial, C94_heat_refuted, C94_mirror, C94_transport_groups,
  C94_transport_mirror_partial, C97_slab, C97_units_partial,
  C98_transport_units, C99_heat_units.
* `classic`, `functional_extensionality_dep`, `sig_forall_dec`, `sig_not_dec`:
  C08_last_count_zero_refuted, C100_digits, C100_distinct_refuted,
  C100_exact, C100_kfactor, C100_order, C100_temperatures,
  C101_double_refuted, C102_same_powers, C104_diffusion, C104_harmonics,
  C104_heat, C104_kinetics, C105_fixed_surface, C105_fixed_walls,
  C105_solution_exists, C105_uniform_body, C106_accuracy, C106_equation,
  C106_refinement, C106_reflected, C106_slab_factor, C107_equation,
  C107_first_refuted, C107_slab, C107_stops, C108_transport_slab,
  C109_transition_double_refuted, C110_harmonics, C110_reflected,
  C16_double_equal_reflexive, C16_double_nonstrict_reflexive_refuted,
  C39_nan_refuted, C48_no_fission_refuted, C54_slab_refuted,
  C58_step_is_exact, C59_deviations_consistent, C59_deviations_preserved,
  C60_critical_constant, C61_step_splitting, C62_history_follows_trajectory,
  C62_kinetics_calculation, C62_times_missing,
  C64_ads_never_converges_refuted, C64_relative_change_refuted,
  C71_curved_thick, C71_slab_probabilities, C71_sphere_refuted,
  C72_ray_quadrature, C73_curved_partial, C73_slab_well_posed,
  C76_power_stays_positive, C77_reactivity_sign, C78_power_scales,
  C86_transport_slab, C91_transport_slab, C92_transport_below_infinite,
  C92_transport_fission_raises, C92_transport_leakage_lowers,
  C92_transport_never_raises, C92_transport_scattering_raises,
  C94_transport_refuted, C95_accuracy, C95_cells, C95_empty_cell_refuted,
  C95_order, C95_volumes.
* `classic`, `dependent_unique_choice`, `functional_extensionality_dep`, `relational_choice`, `sig_forall_dec`, `sig_not_dec`:
  C57_root_finder_exists, C58_solution_exists, C62_trajectory_exists,
  C88_temperatures_first_refuted, C97_refuted.

`relational_choice` and `dependent_unique_choice` only enter the three
theorems that say a root finder, a solution or a trajectory exists: they show
that hypotheses of other theorems can be met and are used by none of them.

## What is modelled

| model file | code in /repo |
|------------|---------------|
| `ModelText.v` | the `std::string`, `<cctype>`, `std::to_string` and stream operations used |
| `ModelNumTools.v` | `numeric_tools.h`, `numeric_tools.cpp` (comparisons, vector operators, slices, polynomials, dominance check, tridiagonal solver), `PolynomialFunction.cpp` |
| `ModelEigen.v` | `numeric_tools.cpp` source iteration, generalised eigenvalues, sorting; `eigenmodesResults.h` |
| `ModelMesh.v` | `Slab`, `Cylinder`, `Sphere`, `Material`, `Mesh` |
| `ModelReactor.v` | `SolverData`, `KineticsSet`, `Reactor`, relaxation, fission power, storage of modes |
| `ModelDiffusion.v` | `BaseDiffusionCode`, `ForwardDiffusionCode`, `AdjointDiffusionCode`, `DiffusionCodeFactory`, `DiffusionSolver` |
| `ModelHeat.v` | `BaseHeatCode`, `HeatSolver` |
| `ModelSpectrum.v` | `BaseSpectrumCode`, `SlabSpectrumCode`, `CylSpectrumCode`, `SphSpectrumCode`, `SpectrumCodeFactory`, `SpectrumSolver` |
| `ModelKinetics.v` | `Kinetics`, `KineticsSolver` |
| `ModelCalculation.v` | `AbstractSolver`, `CoupledSolver`, `ADSSolver`, `BaseCalculation`, `SingleCalculation`, `DoubleCalculation`, `ADSCalculation`, `Problem` |
| `ModelOutput.v` | `Output` (paths, level), the vector dump, `plot.cpp`, `AbstractSolver::plots`, `Input::getArguments` |
| `ModelEcho.v` | what `Input.cpp` prints while reading: solvers, geometry, mesh, solver properties, powers, kinetics and material data |
| `ModelLog.v` | `Output::print`, `additionalPrintFuncs` (the lines of the log file) |
| `ModelFormat.v` | `stringFormat` (the text of a double) |
| `ModelInput.v` | `Input.cpp` (all reading), word classification |
| `ModelMain.v` | `main.cpp` |
| `ModelProgram.v` | `main.cpp` with the log file: removal and opening, start, end, complaint about the level |

Not modelled: how integers are formatted in the log (a parameter of the log
models, as is the format of numbers, which C100 fills in for doubles), the spdlog and matplotlib back ends, the file system beyond "this file has this text or
cannot be opened", failure to open the log file, rounding and overflow in the
theorems stated at `R`, accuracy of the library oracles, running out of
memory, the singleton and `whatAmI` of `Uranium.cpp` (a file that is not compiled: not in CMakeLists, and the header of its base class, `AbstractMaterial.h`, is missing), files with 2^32 lines or more, locales
other than C, and `-0.0`/NaN sign bits in `copysign`.

## Per property

| id | modelled code | how it is proved |
|----|---------------|------------------|
| C01 | findKeyword | refinement to "first line in the window satisfying p" by induction on the lines |
| C02 | storeInput, removeExtraSpaces | word function of the normalised line equals that of the line; idempotence; induction on the string |
| C03 | splitLine | words of `a ++ "%" ++ b` independent of b |
| C04 | findBlock, setXS | refuted by computation on two small files; partial theorem for files with distinct unambiguous names and complete blocks |
| C05 | findKeyword | refuted by computation |
| C06, C07 | setMesh | loop invariants over regions and cells |
| C08 | setMesh | refuted (UB, NaN); non numeric regions rejected |
| C09, C10 | setManyParameters | three expansion theorems by induction; C10 refuted |
| C11 | isFloat, isInteger, isString | induction on strings; exclusivity refuted |
| C12 | setSolvers | refinement to map/append, lifted through the whole reader |
| C13 | setSolverProperties | each stage of the reader keeps the kinds; refuted for a 4-word albedo line by a run of the program |
| C14 | readData | decomposition of an accepted run into its stages; frame of every stage |
| C15 | getArguments | case analysis on the argument list |
| C16 | comparison templates | real order theory; double counterexample by computation |
| C17 | vector operators | list induction |
| C18-C20 | multiply_poly, prod_poly, prod_poly_i, PolynomialFunction | evaluation homomorphism by loop invariant |
| C21 | tridiag_solver | invariant of elimination when the upper diagonal is constant (partial), 3x3 counterexample |
| C22 | diagonalDominanceCheck | loop invariant |
| C23-C25 | sourceIteration | loop invariant over iterations, linear solve as oracle; C24 refuted at the first iteration |
| C26, C27 | sortEigenmodes, eigenmodesResults | permutation and sortedness; C27 refuted |
| C28-C30 | Slab, Cylinder, Sphere, Mesh | telescoping sums; C29 refuted for the sphere |
| C31-C33 | Mesh, Material | pointwise lookup after update |
| C34-C38 | BaseHeatCode | pointwise characterisation of the assembled matrix, then algebra; C35, C36 refuted for non-uniform meshes, proved for uniform; C38 discrete maximum principle |
| C39 | HeatSolver::solve | loop invariant; refuted with NaN in IEEE doubles |
| C40 | relaxResults | algebra |
| C41-C47 | Diffusion | pointwise characterisation of the assembled matrices, algebra, discrete maximum principle; C42 refuted for unequal end cells |
| C48, C49 | power distribution, coupled loop | sums, invariant over iterations |
| C50-C55 | CPM | pointwise characterisation, telescoping with an arbitrary kernel; C54 refuted |
| C56-C63 | Kinetics | polynomial algebra, intermediate value theorem, derivation, partial fractions |
| C64, C65 | DoubleCalculation, BaseCalculation | loop invariant; relative test refuted for vectors; dispatch from the program arguments |
| C66, C67 | ADSCalculation | bilinear algebra in one group; refuted for two groups; strength truncation refuted |
| C68-C70 | Output, createCppVector, plot | string induction; refuted for bare names, short vectors, zero minima |
| C71 | the three calcCPs | convexity of the kernels; sphere refuted with interval bounds on exp |
| C72 | abscissa, weights | exact moments in `Q`, Riemann integral |
| C73 | specMMatrix | non-negative probabilities with row sums below one make the operator diagonally dominant |
| C74 | the three calcCPs | scaling invariance of every stage |
| C75 | whiteBoundary | only the first albedo is read |
| C76-C78 | Kinetics | comparison with the trajectory of C58, Perron-type positivity, linearity |
| C79 | every calculation | frame of every function that writes the reactor |
| C80 | whole reader | loop over materials and cells: each pass appends to its own table and keeps the others; index of a pair in a flat_map |
| C81 | whole reader | chain of property passes: what a line says survives the lines with other names |
| C82 | whole reader | invariants of the loop over the solvers, with C07 and C09 |
| C83 | every calculation, printResults, printEigenmodesResults | inversion of every step up to the final reactor; the log is compared with a report written directly on that reactor |
| C84 | Output::print, additionalPrintFuncs | induction on the log; index arithmetic of a flat_map; loop invariants |
| C85 | the prints of Input.cpp beside the readers | the printing loop run in step with the reading loop; permutation of the cells |
| C86 | `sourceIteration` on the diffusion and slab transport operators | power method: brackets of the ratios of successive iterates shrink by a fixed factor (positive matrix on the cells where neutrons are born); non-negative solutions spread along scattering and neighbouring cells; uniqueness by the smallest ratio of two modes |
| C87 | `heatSolve` with one-coefficient conductivity laws | every iteration solves the same monotone system, so the second equals the first; linearity and order from that system |
| C88 | `doubleCalculation` over meshes of constant laws | a second neutron calculation stores what is already there (`neutronic_again`), a second heat calculation too (C87), so the loop can be run symbolically; the weights of the relaxed temperatures follow. `C88_temperatures_first_refuted`: the loop compares temperatures before relaxing them |
| C89 | `readDataLog`: the reading of `ModelInput.v` with the lines it prints | the stages of `readLines` are followed with their lines; the data lines only depend on the mesh and the materials, which the later stages leave alone (`still`); what is in effect comes from C81. `C89_in_effect_refuted` |
| C90 | `program`: `main` with the disk, over `readDataLog` and `logLines` | the logged reading is the reading (`logs_data`) and exists when the reading does (C89); the level is only used for the lines (C84). `C90_input_lost_refuted`, `C90_names_refuted` |
| C91 | `diffusionSystem`, `spectrumSystem` and `sourceIteration` against the group equations without space (`infinite_medium`) | a flat flux makes no currents and the collision probabilities of a row add up to one (C41, C53), so the flat flux is a mode; the volume average of every mode solves the group equations (telescoping currents, reciprocity C51); uniqueness from C86 |
| C92 | the same operators of two reactors compared entry by entry (diffusion; transport in slabs, where the return factor a/(1 - pss a) grows with the albedo) | the smallest multiple of one fission source above the other, the monotone inverse of the loss operator, and for strictness the chains of scattering and fission of C86 |
| C93 | the log of a whole single calculation (`problemSolve`, `logLines`) and `sourceIteration` | the first line holds the last iterate; the error of the iterates decreases like a power (C86) and only finitely many iterates come before a given error, so their changes have a positive lower bound; refuted by a closed homogeneous reactor whose first iterate is one |
| C94 | the whole diffusion and transport calculations (`diffusionSolve`, `spectrumSolve`) on two meshes, and the heat system | the system of one mesh is the other's with rows and columns renumbered; every step of the source iteration keeps the renumbering; refuted for temperatures, since the face before the last cell gets the conductivity of that cell alone |
| C95 | `setMesh` and `ramp` on IEEE doubles | every operation is the rounded exact one; rounding is monotone, and the last step of a region does not pass its end; relative errors multiply; refuted that no cell is empty |
| C96 | whole runs with `program` on two disks | the two searches see the same lines once comments are dropped and letters are small; every function of the reading uses the lines through the searches only; an empty line shifts both searches alike unless a section begins at line 0; refuted for empty lines anywhere, tabs and comments at the end of a line |
| C97 | `diffusionSolve` on two reactors | both matrices are multiplied by the area factor of the new unit; induction on the iterates: from the second on fluxes and factors agree; the heat source through the power normalisation; refuted with a cylinder of two cells |
| C98 | `spectrumSolve` on two reactors | optical lengths have no unit: every collision probability agrees, hence both matrices; then the iteration is the same |
| C99 | `heatSolve` on two reactors | every row of the system is multiplied by the same factor w; induction on the iterations of the loop |
| C100 | `stringFormat` on binary64 | the decimal exponent and the rounded mantissa are found in integers; error, order and exactness by decades; the text is read back by a reader defined apart from the model |
| C101 | `setMesh` on the text of the mesh line | boundaries are partial sums of the widths of the cells and zones are the materials of the cells, by induction on the regions; both are functions of the list of cells |
| C102 | `Kinetics`, `KineticsSolver` | a solution of one problem is, rescaled and reordered, a solution of the other; the calculation finds the only one (C62) |
| C103 | `DoubleCalculation` with `DiffusionSolver` or `SpectrumSolver` and `HeatSolver` | a relation between two reactors that every half step preserves, by C97 or C98 and C99; by induction on the iterations |
| C104 | `program` (main, reader, solver, log) | the theorems on the reader (C80, C81, C82), the solver (C62, C105, C106, C107, for all modes C108 and C110) and the log (C83, C90) put together; that every cell knows its number of groups is an invariant of the reader (ProofsInputK.v) |
| C105 | `heatSolve`, `setupSystem`, `applyHeatBoundary` | the differential equation is solved by the mean value theorem; its solution plus a constant meets every balance; uniqueness from C87 |
| C106 | `diffusionSystem`, `sourceIteration` | the discrete cosine meets every balance (C41), uniqueness of the mode from C86; the factor of the equation by the mean value theorem applied to the Wronskian with a cosine; tangents compare the two |
| C107 | `diffusionSystem`, `sourceIteration` | from the second iterate on the factor is a Rayleigh quotient of the symmetric loss operator (ProofsRayleigh.v): Cauchy's inequality in two scalar products makes it rise, a sum of squares over pairs of cells bounds it, and the component of the flux along the cosine, which does not shrink, turns the last change into a distance; the changes add up to at most the factor, which bounds the iterations |
| C108 | `GeneralizedEigenSolver`, `sortEigenmodes`, `sourceIteration`, `diffusionSystem`, the slab transport operators | the fission source of a complex mode, divided by that of the fundamental mode, is largest in modulus somewhere; the non-negative inverse of the loss operator turns this into a bound of its factor, and equality into proportionality (ProofsDominant.v); in one group symmetry of the loss operator makes the factors real and the modes orthogonal |
| C109 | `density`, `heatCapacity`, `thermalConductivity` of uranium (ModelUranium.v) | the tolerant comparisons are turned into inequalities, case by case over the phases; partial: refuted at the transitions and for Kelvin |
| C110 | `diffusionSystem`, `GeneralizedEigenSolver`, `sortEigenmodes` for a homogeneous slab | the rows of the matrix are a second order recurrence with the same ratio of fluxes across both faces; its eigenvalue lies between 0 and 4, the solution is a combination of cosine and sine, and the faces leave one of the two (ProofsWaves.v); the converse by the addition theorems |

## What was found in the code

The refuted theorems, in words:

* C04 a missing entry is read from the next material; a name that is the prefix
  of another reads the other's block. C05 text after `%` selects lines.
* C08 a mesh line with incomplete triples, negative or huge counts is undefined
  behaviour; a zero count gives a NaN boundary. C10 the same for other lists.
* C11 `"5."` reads past the string. C13 an albedo line with three or six values
  is silently ignored and the slab solver reads past the default.
* C15 a wrong argument count is reported as "too many" even when it is too few.
* C16 `is_greater_equal(100.0, 100.0)` is false in doubles.
* C21 the tridiagonal solver uses the upper diagonal one row late.
* C24 source iteration that stops at its first step need not be an eigenpair.
* C27 an eigenvalue run without positive mode reads an empty vector.
* C29 the sphere's surface in centimetres is scaled twice; C54 follows.
* C35, C36 heat conduction on uneven meshes: half cells are swapped, the last
  interface is not conservative. C38 two insulated faces are accepted.
* C39 NaN temperatures count as converged; the first change is against ones.
* C42 periodic boundaries with unequal end cells do not conserve neutrons.
* C48 without fission the heat sources silently become NaN.
* C63 fewer delayed fractions than constants is undefined behaviour, more are
  accepted and change the result.
* C64 the relative temperature change is computed and thrown away; a pair with
  an ADS solver never converges.
* C66 the production operator is wrong for several groups. C67 the source
  strength is truncated to an integer.
* C68 a bare file name is lost. C69 dumps of one or two values are undefined.
* C70 results with minimum zero are not plotted, the total flux never is.
* C71 the sphere's self collision probability can be negative. C75 the second
  albedo of a slab is ignored by the transport solver.
* C85 the log shows the generation time as the initial power, and the material
  data in alphabetical order without labels. C89 it shows every word of a
  property line, also when the number of words makes the reader ignore them.
* C90 an output file with the name of the input file destroys the input.

## Tests against wrong programs

`seeded/LOG.jsonl` lists the edits made to the model in a scratch copy, the
claim each one breaks, the theorems that no longer proved, and the theorems
tightened because of it. "Failed" there means: its proof breaks, or it uses a
lemma whose proof breaks.
