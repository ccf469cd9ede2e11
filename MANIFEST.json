{
 "claims": [
  {
   "property": "C01",
   "status": "proved",
   "theorems": [
    "C01_keyword_lookup",
    "C01_total"
   ],
   "note": "For every list of lines, key and window."
  },
  {
   "property": "C02",
   "status": "proved",
   "theorems": [
    "C02_normalisation",
    "C02_idempotent"
   ],
   "note": "For every text."
  },
  {
   "property": "C03",
   "status": "proved",
   "theorems": [
    "C03_inline_comment",
    "C03_covers"
   ],
   "note": "For every line."
  },
  {
   "property": "C04",
   "status": "partial",
   "theorems": [
    "C04_own_entry_partial",
    "C04_missing_entry_refuted",
    "C04_prefix_refuted"
   ],
   "note": "A material's own entry is used when its name is not the prefix of another heading and the entry exists in its block; both exceptions are refuted (another material's value is read)."
  },
  {
   "property": "C05",
   "status": "partial",
   "theorems": [
    "C05_comment_selects_line_refuted",
    "C05_comments_partial"
   ],
   "note": "Refuted: the text after a % takes part in the search for a keyword. Proved for comment lines and for values after the keyword."
  },
  {
   "property": "C06",
   "status": "proved",
   "theorems": [
    "C06_partition"
   ],
   "note": "Over the reals, for every mesh line whose words read as positive regions with fewer than 2^31-1 cells in total."
  },
  {
   "property": "C07",
   "status": "proved",
   "theorems": [
    "C07_cell_material"
   ],
   "note": "For every number type."
  },
  {
   "property": "C08",
   "status": "partial",
   "theorems": [
    "C08_malformed_refuted",
    "C08_malformed_partial",
    "C08_last_count_zero_refuted",
    "C08_count_zero_refuted"
   ],
   "note": "Refuted for incomplete triples, negative counts, too many cells (undefined behaviour) and zero counts (accepted; NaN outer boundary on doubles, lost interface). Proved: non numeric counts or thicknesses and a missing line are rejected."
  },
  {
   "property": "C09",
   "status": "proved",
   "theorems": [
    "C09_verbatim",
    "C09_repeat",
    "C09_ramp"
   ],
   "note": "Ramp over the reals, the other two shapes for every number type; counts whose sum fits an int."
  },
  {
   "property": "C10",
   "status": "partial",
   "theorems": [
    "C10_expand_partial",
    "C10_expand_refuted"
   ],
   "note": "Never undefined when every word can be classified, lists of spans have even length and counts are non-negative with a small sum; refuted otherwise for three families of lists."
  },
  {
   "property": "C11",
   "status": "partial",
   "theorems": [
    "C11_integer",
    "C11_not_both",
    "C11_float",
    "C11_classes_refuted",
    "C11_string_first_letter"
   ],
   "note": "Classification by integer, float and string; refuted that the classes are exclusive and exhaustive ('.', '5.')."
  },
  {
   "property": "C12",
   "status": "proved",
   "theorems": [
    "C12_solvers",
    "C12_unknown"
   ],
   "note": "For every input file, number type and number reader."
  },
  {
   "property": "C13",
   "status": "partial",
   "theorems": [
    "C13_albedo_count_partial",
    "C13_refuted"
   ],
   "note": "Proved when every albedo line starts with the word albedo and has at most two values; refuted otherwise: lines with three or six values are accepted and skipped, and the solver then reads past the single default albedo."
  },
  {
   "property": "C14",
   "status": "proved",
   "theorems": [
    "C14_untouched",
    "C14_required"
   ],
   "note": "For every accepted file: what the solvers do not need keeps its initial value, and every keyword they need occurs in a data line. The number of energy groups and the relaxation parameter are not covered, since the first word of the found line, not the keyword searched, decides which property is set."
  },
  {
   "property": "C15",
   "status": "proved",
   "theorems": [
    "C15_command_line",
    "C15_message_refuted"
   ],
   "note": "Every argument vector. The message for a wrong count names no argument (C15_message_refuted)."
  },
  {
   "property": "C16",
   "status": "partial",
   "theorems": [
    "C16_trichotomy",
    "C16_meaning",
    "C16_swap",
    "C16_reflexive",
    "C16_monotone",
    "C16_double_equal_reflexive",
    "C16_double_nonstrict_reflexive_refuted"
   ],
   "note": "Proved on the reals; on doubles equality is reflexive for every finite value, but reflexivity of the non-strict comparisons is refuted (100.0)."
  },
  {
   "property": "C17",
   "status": "proved",
   "theorems": [
    "C17_add",
    "C17_sub",
    "C17_mul",
    "C17_div",
    "C17_slice"
   ],
   "note": "For every number type, hence bit for bit on doubles. The product of the values is over an abstract number type; no property of arithmetic is used."
  },
  {
   "property": "C18",
   "status": "proved",
   "theorems": [
    "C18_product_evaluates"
   ],
   "note": "Over the reals."
  },
  {
   "property": "C19",
   "status": "proved",
   "theorems": [
    "C19_linear_factors",
    "C19_leave_one_out"
   ],
   "note": "Over the reals."
  },
  {
   "property": "C20",
   "status": "proved",
   "theorems": [
    "C20_polynomial_law",
    "C20_additive",
    "C20_shifted_law"
   ],
   "note": "Over the reals; rounding to six decimals is an arbitrary function."
  },
  {
   "property": "C21",
   "status": "partial",
   "theorems": [
    "C21_tridiag_solver_partial",
    "C21_tridiag_solver_solves_shifted",
    "C21_tridiag_solver_refuted",
    "C21_tridiag_solver_empty_refuted"
   ],
   "note": "The code solves the system whose upper diagonal is shifted by one row; the claim is refuted in general and proved for constant upper diagonals."
  },
  {
   "property": "C22",
   "status": "proved",
   "theorems": [
    "C22_dominance_warning",
    "C22_negative_diagonal_warns"
   ],
   "note": "Over the reals."
  },
  {
   "property": "C23",
   "status": "proved",
   "theorems": [
    "C23_first_converged_iterate",
    "C23_unit_norm"
   ],
   "note": "Iteration law for every number type; unit norm over the reals."
  },
  {
   "property": "C24",
   "status": "partial",
   "theorems": [
    "C24_fixed_point_is_eigenpair_partial",
    "C24_residual",
    "C24_flat_start",
    "C24_first_iteration_refuted"
   ],
   "note": "Fixed points after at least two iterations are eigenpairs; refuted when the iteration stops at its first step."
  },
  {
   "property": "C25",
   "status": "proved",
   "theorems": [
    "C25_positive_iterates",
    "C25_positive_result"
   ],
   "note": "Over the reals, any exact non-negative inverse."
  },
  {
   "property": "C26",
   "status": "proved",
   "theorems": [
    "C26_modes_reported",
    "C26_modes_normalised",
    "C26_modes_are_eigenpairs",
    "C26_complex_rejected"
   ],
   "note": "The library eigenvalue routine is a parameter; its contract is a hypothesis."
  },
  {
   "property": "C27",
   "status": "partial",
   "theorems": [
    "C27_report_or_error_refuted",
    "C27_no_positive_mode_is_undefined"
   ],
   "note": "Refuted: with no positive mode the result is read from an empty list."
  },
  {
   "property": "C28",
   "status": "proved",
   "theorems": [
    "C28_volumes_partition"
   ],
   "note": "Over the reals with the exact value of pi."
  },
  {
   "property": "C29",
   "status": "partial",
   "theorems": [
    "C29_external_surface_partial",
    "C29_surfaces",
    "C29_sphere_cm_refuted"
   ],
   "note": "Proved for slab, cylinder and for the sphere in metres; refuted for the sphere in centimetres (factor applied twice)."
  },
  {
   "property": "C30",
   "status": "proved",
   "theorems": [
    "C30_cells_consistent",
    "C30_uniform_mesh",
    "C30_units"
   ],
   "note": "Over the reals."
  },
  {
   "property": "C31",
   "status": "proved",
   "theorems": [
    "C31_temperatures_round_trip",
    "C31_too_many_is_undefined",
    "C31_heat_sources_round_trip"
   ],
   "note": "For every number type."
  },
  {
   "property": "C32",
   "status": "proved",
   "theorems": [
    "C32_cross_sections",
    "C32_scattering_and_removal",
    "C32_law_is_polynomial"
   ],
   "note": "For every number type; the link from input lines to laws is in the input properties."
  },
  {
   "property": "C33",
   "status": "proved",
   "theorems": [
    "C33_fluxes_round_trip",
    "C33_fundamental_is_mode_zero",
    "C33_total_fluxes_round_trip"
   ],
   "note": "For every number type."
  },
  {
   "property": "C34",
   "status": "proved",
   "theorems": [
    "C34_rows_conservative"
   ],
   "note": "Row sums, signs and sparsity of the matrix returned by setupSystem, for every mesh with at least two cells and positive conductivities."
  },
  {
   "property": "C35",
   "status": "partial",
   "theorems": [
    "C35_interface_flow_partial",
    "C35_interface_flow_refuted"
   ],
   "note": "Holds at every interface but the last. At the last interface it holds exactly when the last cell is as wide as the mean of the two cells before it; the defect of the total balance is given, and an uneven mesh refutes the full statement."
  },
  {
   "property": "C36",
   "status": "partial",
   "theorems": [
    "C36_series_resistance_partial",
    "C36_series_resistance_refuted"
   ],
   "note": "The widths of the two half cells are swapped in the code: the resistance is the series resistance exactly when the two widths or the two conductivities agree. A slab with widths 1, 2 and conductivities 1, 3 refutes the full statement."
  },
  {
   "property": "C37",
   "status": "proved",
   "theorems": [
    "C37_boundary_rows",
    "C37_special_cases"
   ],
   "note": "Both boundary rows, all geometries, all coefficients for which the surface temperature is determined."
  },
  {
   "property": "C38",
   "status": "proved",
   "theorems": [
    "C38_unique_temperatures",
    "C38_maximum_principle",
    "C38_insulated_slab_refuted"
   ],
   "note": "Maximum principle for the temperatures returned by the heat solver (any exact linear solver, temperature dependent conductivities), existence and uniqueness. Two insulated faces give a singular system that the code accepts."
  },
  {
   "property": "C39",
   "status": "partial",
   "theorems": [
    "C39_iteration_partial",
    "C39_last_change_refuted",
    "C39_nan_refuted"
   ],
   "note": "Exact description of the iteration over the reals. Refuted twice: the first iteration is compared with ones instead of the previous temperatures, and NaN temperatures count as converged."
  },
  {
   "property": "C40",
   "status": "proved",
   "theorems": [
    "C40_relaxation_interpolates",
    "C40_stored_fields",
    "C40_length_mismatch_refuted"
   ],
   "note": "Relaxation formula and its two uses; different lengths are undefined behaviour."
  },
  {
   "property": "C41",
   "status": "proved",
   "theorems": [
    "C41_finite_volume_balance",
    "C41_currents_exist",
    "C41_symmetric_neighbour_coupling",
    "C41_row_sums",
    "C41_data_available",
    "C41_single_cell_undefined"
   ],
   "note": "Finite-volume balance with unique currents, symmetric non-positive neighbour coupling, row sums with leakage; needs at least two cells, one cell is shown undefined."
  },
  {
   "property": "C42",
   "status": "partial",
   "theorems": [
    "C42_periodic_rows_partial",
    "C42_periodic_symmetry",
    "C42_periodic_conservation_refuted",
    "C42_two_cells_refuted"
   ],
   "note": "Row balance holds for three or more cells; symmetry and conservation need equal end coefficients and are refuted in general and for two cells."
  },
  {
   "property": "C43",
   "status": "proved",
   "theorems": [
    "C43_group_transfers"
   ],
   "note": ""
  },
  {
   "property": "C44",
   "status": "proved",
   "theorems": [
    "C44_fission_operator"
   ],
   "note": ""
  },
  {
   "property": "C45",
   "status": "proved",
   "theorems": [
    "C45_adjoint_is_transpose"
   ],
   "note": "Holds for any number type, so bit for bit in floating point."
  },
  {
   "property": "C46",
   "status": "proved",
   "theorems": [
    "C46_neutron_balance"
   ],
   "note": ""
  },
  {
   "property": "C47",
   "status": "proved",
   "theorems": [
    "C47_well_posed"
   ],
   "note": "Proved for any number of groups."
  },
  {
   "property": "C48",
   "status": "proved",
   "theorems": [
    "C48_power_normalised",
    "C48_diffusion_solve",
    "C48_no_fission_refuted",
    "C48_spectrum_solve"
   ],
   "note": "Over the reals, any modes and any mesh: each cell's stored heat source times its volume is the power times its share of the fission rate of the stored flux, summing to the requested power when the fission rate is non-zero; also for the whole forward fundamental diffusion and transport solvers with any linear solver. With zero fission rate the double-precision model stores NaN silently (C48_no_fission_refuted, a case the property's quantifier excludes)."
  },
  {
   "property": "C49",
   "status": "proved",
   "theorems": [
    "C49_power_kept",
    "C49_final_power"
   ],
   "note": "Every iteration of every coupled run of diffusion or transport with any other solver, any relaxation parameter and numerical libraries of the right shapes, over the reals."
  },
  {
   "property": "C50",
   "status": "proved",
   "theorems": [
    "C50_slab_optical_distance",
    "C50_curved_optical_distance"
   ],
   "note": "Every mesh the transport solver accepts, any number of cells and groups."
  },
  {
   "property": "C51",
   "status": "proved",
   "theorems": [
    "C51_reciprocity"
   ],
   "note": "All three geometries, before and after the albedo correction, with the exponential integral, Bickley function, exp and sqrt as arbitrary functions."
  },
  {
   "property": "C52",
   "status": "proved",
   "theorems": [
    "C52_slab_conservation",
    "C52_curved_conservation"
   ],
   "note": "Slab with the kernel value 1/2 at 0; cylinder and sphere with any kernel: the missing part of a row is the ray sum of the kernel differences at the outer boundary."
  },
  {
   "property": "C53",
   "status": "proved",
   "theorems": [
    "C53_albedo_balance"
   ],
   "note": "Stated for the printed balance (check) with Pss computed from the vacuum probabilities; the case 1 - a Pss = 0 is excluded by a hypothesis."
  },
  {
   "property": "C54",
   "status": "partial",
   "theorems": [
    "C54_slab_value",
    "C54_slab_refuted",
    "C54_cylinder",
    "C54_sphere_refuted"
   ],
   "note": "Holds for the cylinder (C54_cylinder). Fails for the slab, where the code uses one face only: the value is 4 E3(tau) - 1, negative from one mean free path on (C54_slab_value, C54_slab_refuted). Fails for the sphere, where the surface is 10^4 times too large: the value is at least 0.9998 for every body, however thick (C54_sphere_refuted)."
  },
  {
   "property": "C55",
   "status": "proved",
   "theorems": [
    "C55_transport_defined",
    "C55_transport_operators"
   ],
   "note": "Definedness for every accepted mesh and the entries of both operators."
  },
  {
   "property": "C56",
   "status": "proved",
   "theorems": [
    "C56_inhour_polynomial"
   ],
   "note": "Any number of groups over the reals; also the leading coefficient is -alpha."
  },
  {
   "property": "C57",
   "status": "proved",
   "theorems": [
    "C57_roots_real_distinct",
    "C57_root_finder_exists"
   ],
   "note": "n+1 distinct real roots by sign changes; the complex factorisation has no other roots, so any root finder meeting its specification returns real roots. Such a root finder exists (C57_root_finder_exists)."
  },
  {
   "property": "C58",
   "status": "proved",
   "theorems": [
    "C58_step_is_exact",
    "C58_solution_exists"
   ],
   "note": "Against every continuous solution of the differential equations on the step, for forward and backward steps; a solution exists for every state. exp is the real exponential, the root finder a parameter assumed to return the complex roots with multiplicity."
  },
  {
   "property": "C59",
   "status": "proved",
   "theorems": [
    "C59_deviations_consistent",
    "C59_deviations_preserved"
   ],
   "note": "All histories from the constructor, and one step from any consistent state."
  },
  {
   "property": "C60",
   "status": "proved",
   "theorems": [
    "C60_critical_constant"
   ],
   "note": "All histories with zero reactivity."
  },
  {
   "property": "C61",
   "status": "proved",
   "theorems": [
    "C61_step_splitting"
   ],
   "note": "The whole state, including the clock, is equal."
  },
  {
   "property": "C62",
   "status": "proved",
   "theorems": [
    "C62_history_follows_trajectory",
    "C62_trajectory_exists",
    "C62_kinetics_calculation",
    "C62_times_missing"
   ],
   "note": "Powers are the values of the piecewise driven trajectory, which exists for non-decreasing times; the whole calculation reads reactivities and times of the reactor; too few times is an out of range access."
  },
  {
   "property": "C63",
   "status": "partial",
   "theorems": [
    "C63_times_partial",
    "C63_group_arity_refuted",
    "C63_extra_fractions_counted"
   ],
   "note": "Equal numbers of times and reactivities for every accepted file. Fewer fractions than decay constants reaches an out of range access in the constructor (C63_group_arity_refuted); more fractions are accepted and change the result (C63_extra_fractions_counted)."
  },
  {
   "property": "C64",
   "status": "partial",
   "theorems": [
    "C64_convergence_partial",
    "C64_no_convergence",
    "C64_compared",
    "C64_relative_change_refuted",
    "C64_ads_never_converges_refuted"
   ],
   "note": "Proved: a returned run stopped at its first iteration whose k factor changed relatively, and whose temperatures changed absolutely, by at most the accuracy (or at once when the accuracy is 1 or more); otherwise the error exit. The relative change claimed for the temperatures is refuted by a binary64 run; an ADS solver in a pair never converges."
  },
  {
   "property": "C65",
   "status": "proved",
   "theorems": [
    "C65_dispatch"
   ],
   "note": "From the program arguments and the file: one name, two names, three or more."
  },
  {
   "property": "C66",
   "status": "partial",
   "theorems": [
    "C66_residual_partial",
    "C66_one_group_partial",
    "C66_two_groups_refuted"
   ],
   "note": "One group: the residual is orthogonal to every adjoint mode, and vanishes when there are as many modes as cells. Several groups: the residual along each adjoint mode is computed exactly; it is not zero in general because the production operator of the code multiplies each group's flux with the fission data of all groups (C66_two_groups_refuted, an exact rational run of the whole calculation)."
  },
  {
   "property": "C67",
   "status": "partial",
   "theorems": [
    "C67_whole_part",
    "C67_proportional_partial",
    "C67_fractions_refuted"
   ],
   "note": "The flux follows the whole part of the strength: proportional for whole strengths, refuted for fractions (any strength below one gives zero flux)."
  },
  {
   "property": "C68",
   "status": "partial",
   "theorems": [
    "C68_paths_split",
    "C68_bare_name_refuted",
    "C68_levels",
    "C68_extension_removed"
   ],
   "note": "Proved for every path with a separator, every level name and every extension; a path without separator loses its name, which is refuted by C68_bare_name_refuted."
  },
  {
   "property": "C69",
   "status": "partial",
   "theorems": [
    "C69_values_in_order",
    "C69_short_refuted"
   ],
   "note": "Proved for every list of at least three values; fewer values reach undefined behaviour (C69_short_refuted)."
  },
  {
   "property": "C70",
   "status": "partial",
   "theorems": [
    "C70_nothing_else",
    "C70_flux_plotted_partial",
    "C70_values_plotted_partial",
    "C70_distinct_files",
    "C70_total_flux_plotted_partial",
    "C70_zero_minimum_refuted",
    "C70_total_flux_refuted"
   ],
   "note": "Nothing but the requested plots is made, in files with different names, and fluxes and values are plotted when the data pass the code's test. Refuted: data with minimum zero are skipped, and the total flux is never plotted."
  },
  {
   "property": "C71",
   "status": "partial",
   "theorems": [
    "C71_slab_probabilities",
    "C71_curved_partial",
    "C71_curved_thick",
    "C71_sphere_refuted"
   ],
   "note": "Slab: proved with E3. Cylinder and sphere: off-diagonal entries are non-negative and rows sum to at most one for every mesh; the diagonal is bounded below up to the quadrature error of the cell volume (C71_curved_partial) and is a probability in cells at least three mean free paths thick (C71_curved_thick). In a thin nearly transparent spherical shell the self collision probability of the code is negative (C71_sphere_refuted), so the full statement is false."
  },
  {
   "property": "C72",
   "status": "proved",
   "theorems": [
    "C72_ray_quadrature"
   ],
   "note": "Coquelicot Riemann integral; error at most 1e-10 times the sum of the absolute coefficients."
  },
  {
   "property": "C73",
   "status": "partial",
   "theorems": [
    "C73_slab_well_posed",
    "C73_curved_partial"
   ],
   "note": "Slab: proved. Cylinder and sphere: proved under the hypothesis that the self collision probabilities are non-negative, which C71_sphere_refuted shows is needed and C71_curved_thick gives for thick cells."
  },
  {
   "property": "C74",
   "status": "proved",
   "theorems": [
    "C74_unit_of_length"
   ],
   "note": "All geometries and albedos; the square root only needs to be homogeneous."
  },
  {
   "property": "C75",
   "status": "partial",
   "theorems": [
    "C75_second_albedo_refuted"
   ],
   "note": "Refuted: the operators are the same for any second albedo (C75_second_albedo_refuted), in every number type."
  },
  {
   "property": "C76",
   "status": "proved",
   "theorems": [
    "C76_power_stays_positive"
   ],
   "note": "All histories with non-decreasing times."
  },
  {
   "property": "C77",
   "status": "proved",
   "theorems": [
    "C77_reactivity_sign"
   ],
   "note": "One step of any positive length from the equilibrium of the constructor."
  },
  {
   "property": "C78",
   "status": "proved",
   "theorems": [
    "C78_power_scales"
   ],
   "note": "All histories with non-decreasing times."
  },
  {
   "property": "C79",
   "status": "proved",
   "theorems": [
    "C79_input_unchanged",
    "C79_heat_leaves_neutronics",
    "C79_neutronics_leave_temperatures"
   ],
   "note": "All calculations, any arithmetic and numerical libraries."
  },
  {
   "property": "C80",
   "status": "proved",
   "theorems": [
    "C80_cross_sections"
   ],
   "note": "For every number type and every decoding of numbers. When several neutronic solvers are listed the reader appends the laws once per solver; the theorem is about the first entries, the ones the solvers index."
  },
  {
   "property": "C81",
   "status": "partial",
   "theorems": [
    "C81_solver_properties",
    "C81_reactor_properties",
    "C81_value_count_refuted"
   ],
   "note": "Under the hypothesis that the line found for a property starts with the name of the property (it is false for a line that merely mentions the name, see C13), and for lines with the expected number of values. A line with another number of values is accepted and ignored, which is refuted as a separate theorem."
  },
  {
   "property": "C82",
   "status": "partial",
   "theorems": [
    "C82_heat_data",
    "C82_kinetics_data",
    "C82_mesh_data",
    "C82_plots",
    "C82_temperature_count_refuted"
   ],
   "note": "Every accepted file. That a file with too few or too many temperatures is rejected is refuted: too few leave cells at zero, too many write past the end."
  },
  {
   "property": "C83",
   "status": "proved",
   "theorems": [
    "C83_single_report",
    "C83_kinetics_report",
    "C83_coupled_report",
    "C83_power_shown",
    "C83_ads_report",
    "C83_ads_products"
   ],
   "note": "For every number type, number format, trace level and library answer. The ADS calculation, with its extra vectors, is C83_ads_report and C83_ads_products."
  },
  {
   "property": "C84",
   "status": "proved",
   "theorems": [
    "C84_levels",
    "C84_matrix_lines",
    "C84_square_tensor",
    "C84_other_shapes_refuted"
   ],
   "note": "Number formats are a parameter. The code calls the tensor print only on square matrices, so the out-of-bounds case of C84_other_shapes_refuted is latent."
  },
  {
   "property": "C85",
   "status": "partial",
   "theorems": [
    "C85_kinetics_echo",
    "C85_heat_echo",
    "C85_mesh_echo",
    "C85_geometry_echo",
    "C85_xs_echo",
    "C85_matrix_echo",
    "C85_conductivity_echo",
    "C85_cells_shown",
    "C85_initial_power_refuted",
    "C85_cell_order_refuted"
   ],
   "note": "Refuted parts: the line of the initial power shows the generation time (C85_initial_power_refuted), and the material data are shown in the alphabetical order of the materials, without labels, not in the order of the cells (C85_cell_order_refuted). The echo of the solver properties (Input.cpp:767-960) is not modelled."
  },
  {
   "property": "C86",
   "status": "proved",
   "theorems": [
    "C86_source_iteration",
    "C86_diffusion",
    "C86_diffusion_adjoint",
    "C86_same_factor",
    "C86_transport_slab"
   ],
   "note": "Exact arithmetic and an exact linear solver. Transport is covered in slabs with the exact kernel, when every material scatters within each group; the curved transport operators are not covered, because their self collision probabilities can be negative (see C71, C73)."
  },
  {
   "property": "C87",
   "status": "proved",
   "theorems": [
    "C87_constant_conductivity",
    "C87_initial_temperatures",
    "C87_superposition",
    "C87_monotone"
   ],
   "note": "Exact arithmetic and an exact linear solver."
  },
  {
   "property": "C88",
   "status": "partial",
   "theorems": [
    "C88_fluxes_first",
    "C88_temperatures_first_partial",
    "C88_temperatures_first_refuted"
   ],
   "note": "With the fluxes first the results are the same. With the temperatures first the reported temperatures are still a mixture with those of the initial power: the exact weight (1 - relaxation)^(n-1) is proved, and a case where they miss the right ones by more than the accuracy. Exact arithmetic and an exact linear solver."
  },
  {
   "property": "C89",
   "status": "partial",
   "theorems": [
    "C89_log",
    "C89_in_effect_partial",
    "C89_in_effect_refuted"
   ],
   "note": "The list of lines is complete. That the shown property is in effect needs the line to start with the name of the property and to have the expected number of values: with two accuracies the log shows both and neither is used (C89_in_effect_refuted)."
  },
  {
   "property": "C90",
   "status": "partial",
   "theorems": [
    "C90_files_partial",
    "C90_old_files",
    "C90_more_verbose",
    "C90_input_lost_refuted",
    "C90_names_refuted"
   ],
   "note": "Proved for an output name different from the input name. With the same name the input file is removed before it is read and the run stops (C90_input_lost_refuted); a bare name is not shown in the log (C90_names_refuted). Names are compared as texts; blank lines inside the echo of the input and of the results are left out of the model; the log of a run that stops is not modelled."
  },
  {
   "property": "C91",
   "status": "proved",
   "theorems": [
    "C91_diffusion",
    "C91_transport",
    "C91_transport_slab",
    "C91_solvers_agree",
    "C91_one_group"
   ],
   "note": "Exact arithmetic and an exact linear solver. Transport converges for slabs with the exact kernel (C86); in the other geometries the flat mode and the average of every mode are proved, for surface-to-surface probabilities other than one."
  },
  {
   "property": "C92",
   "status": "proved",
   "theorems": [
    "C92_never_raises",
    "C92_absorption_lowers",
    "C92_fission_raises",
    "C92_leakage_lowers",
    "C92_below_infinite",
    "C92_proportional",
    "C92_transport_never_raises",
    "C92_transport_scattering_raises",
    "C92_transport_fission_raises",
    "C92_transport_leakage_lowers",
    "C92_transport_below_infinite"
   ],
   "note": "Diffusion coefficients (diffusion) and total cross sections (transport) are the same in both reactors. Transport: slabs with the exact kernel that scatter within every group. Exact arithmetic and an exact linear solver."
  },
  {
   "property": "C93",
   "status": "partial",
   "theorems": [
    "C93_logged",
    "C93_accuracy_partial",
    "C93_unit_cells",
    "C93_accuracy_refuted"
   ],
   "note": "The full claim is refuted (C93_accuracy_refuted): with unit cells the first factor equals the starting value and the iteration stops. C93_accuracy_partial leaves out runs in which two successive factors are equal."
  },
  {
   "property": "C94",
   "status": "partial",
   "theorems": [
    "C94_mirror",
    "C94_groups",
    "C94_heat_partial",
    "C94_heat_refuted",
    "C94_transport_mirror_partial",
    "C94_transport_groups",
    "C94_transport_refuted"
   ],
   "note": "C94_mirror and C94_groups: the diffusion calculation, in full. C94_transport_groups: the transport calculation in every geometry. C94_transport_mirror_partial: transport in a slab whose sides reflect alike; C94_transport_refuted: with a black and a white side the factor depends on which side is named first. The temperatures: C94_heat_partial for uniform widths and conductivities; C94_heat_refuted shows a slab with conductivities 1, 1, 3 whose first cell has 25 degrees one way round and 150/7 the other."
  },
  {
   "property": "C95",
   "status": "partial",
   "theorems": [
    "C95_order",
    "C95_accuracy",
    "C95_cells",
    "C95_empty_cell_refuted",
    "C95_volumes"
   ],
   "note": "C95_order, C95_accuracy, C95_cells and C95_volumes (with pow as repeated multiplication) hold for IEEE doubles rounded to nearest even, as formalised in Flocq. That every cell has a positive width is refuted by C95_empty_cell_refuted: a last cell thinner than 2^-54 of the region before it is empty."
  },
  {
   "property": "C96",
   "status": "partial",
   "theorems": [
    "C96_layout",
    "C96_empty_lines_partial",
    "C96_empty_line_refuted",
    "C96_tab_refuted",
    "C96_end_comment_refuted"
   ],
   "note": "C96_layout compares two whole runs, with their files. C96_empty_lines_partial adds empty lines, for files whose first line with content does not begin a section. The rest is refuted: C96_empty_line_refuted (an empty first line turns an accepted file into a rejected one), C96_tab_refuted, C96_end_comment_refuted. For runs that stop only the messages are compared, not the log up to there."
  },
  {
   "property": "C97",
   "status": "partial",
   "theorems": [
    "C97_slab",
    "C97_units_partial",
    "C97_refuted"
   ],
   "note": "Proved for slabs (C97_slab). For cylinders and spheres proved when neither calculation stops within its first two iterations (C97_units_partial); the full claim is false there (C97_refuted): the first factor is compared with the initial guess 1 and depends on the unit, so that the same two rings have the factor 1 in centimetres and 2 in half centimetres."
  },
  {
   "property": "C98",
   "status": "proved",
   "theorems": [
    "C98_transport_units"
   ],
   "note": "Unlike C97 the two matrices are the same in both units, so there is no exception for the first iterations. The square root is any function with sq (s^2 x) = s sq x."
  },
  {
   "property": "C99",
   "status": "proved",
   "theorems": [
    "C99_heat_units"
   ],
   "note": "The exit condition compares absolute temperatures, which have the same unit in both descriptions."
  },
  {
   "property": "C100",
   "status": "proved",
   "theorems": [
    "C100_fits",
    "C100_digits",
    "C100_exact",
    "C100_order",
    "C100_not_a_number",
    "C100_distinct_refuted",
    "C100_kfactor",
    "C100_temperatures"
   ],
   "note": "Doubles are Flocq binary64 numbers. The conversion modelled is that of the C standard with rounding to nearest, ties to even, which snprintf of glibc and the fmt library follow. C100_distinct_refuted records what seven digits cannot tell."
  },
  {
   "property": "C101",
   "status": "proved",
   "theorems": [
    "C101_same_cells",
    "C101_split",
    "C101_double_refuted"
   ],
   "note": "Over the reals. C101_double_refuted gives two mesh lines with the same cells whose outer boundaries are different doubles."
  },
  {
   "property": "C102",
   "status": "proved",
   "theorems": [
    "C102_same_powers"
   ],
   "note": "Over the reals and for a root finder that finds the roots, as C62."
  },
  {
   "property": "C103",
   "status": "proved",
   "theorems": [
    "C103_diffusion",
    "C103_transport"
   ],
   "note": "Over the reals, for an exact linear solver and neutron matrices that are invertible at every temperature. Diffusion in cylinders and spheres is excluded because C97 is refuted there."
  },
  {
   "property": "C104",
   "status": "proved",
   "theorems": [
    "C104_kinetics",
    "C104_heat",
    "C104_diffusion",
    "C104_harmonics"
   ],
   "note": "Over the reals, for exact root finders, linear solvers and (all modes) eigenvalue routines in the sense of C108, without plots. For temperatures and diffusion the file has one region of at least two cells; for diffusion one group and a slab, the fundamental mode (C104_diffusion) or all modes (C104_harmonics)."
  },
  {
   "property": "C105",
   "status": "proved",
   "theorems": [
    "C105_uniform_body",
    "C105_solution_exists",
    "C105_fixed_walls",
    "C105_fixed_surface"
   ],
   "note": "Over the reals, for an exact linear solver. C105_solution_exists shows that the differential equation always has a solution with those boundary conditions."
  },
  {
   "property": "C106",
   "status": "proved",
   "theorems": [
    "C106_equation",
    "C106_slab_factor",
    "C106_accuracy",
    "C106_reflected",
    "C106_refinement"
   ],
   "note": "Over the reals, for an exact linear solver and the fundamental mode. C106_equation shows that the differential equation has exactly one factor."
  },
  {
   "property": "C107",
   "status": "proved",
   "theorems": [
    "C107_rising",
    "C107_slab",
    "C107_stops",
    "C107_equation",
    "C107_first_refuted"
   ],
   "note": "Over the reals, for an exact linear solver and the fundamental mode. C107_first_refuted shows that the exception of the first iteration is real: 1 is reported where the reactor has 4."
  },
  {
   "property": "C108",
   "status": "proved",
   "theorems": [
    "C108_first_mode",
    "C108_agree",
    "C108_diffusion",
    "C108_transport_slab",
    "C108_one_group"
   ],
   "note": "Over the reals. The eigenvalue routine is an oracle: it returns eigenpairs, real vectors for real values, and every real eigenvalue; an infinite value has the inverse zero. Factors up to 10/2^52 are dropped by the code, so the factor of the reactor is assumed to be larger."
  },
  {
   "property": "C109",
   "status": "partial",
   "theorems": [
    "C109_uranium_partial",
    "C109_outside",
    "C109_transition_refuted",
    "C109_kelvin_refuted",
    "C109_transition_double_refuted"
   ],
   "note": "Refuted in full: at 942 K and 1049 K, also in double precision, density and heat capacity are zero (C109_transition_refuted), because both neighbouring phases exclude the boundary; and the argument is in Celsius where the comment says Kelvin (C109_kelvin_refuted). Proved everywhere else. The class is not compiled into the program: it is missing from CMakeLists, and so is the header of its base class."
  },
  {
   "property": "C110",
   "status": "proved",
   "theorems": [
    "C110_harmonics",
    "C110_reflected"
   ],
   "note": "Over the reals, for eigenvalue routines in the sense of C108 (finds_modes). Reflecting faces: C110_reflected, an equivalence."
  }
 ]
}