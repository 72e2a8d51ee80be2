{
 "claims": [
  {
   "property": "C01",
   "status": "proved",
   "theorems": [
    "C01_enumeration_complete"
   ],
   "note": "All dimensions and orders; completeness, no duplicates, order of degree, advertised size."
  },
  {
   "property": "C02",
   "status": "proved",
   "theorems": [
    "C02_index_tables_inverse",
    "C02_index_tables_refuted"
   ],
   "note": "Inverse tables for every table of at most 65536 monomials; the collision beyond is proved as the _refuted theorem (d=1, m=65537)."
  },
  {
   "property": "C03",
   "status": "proved",
   "theorems": [
    "C03_product_is_convolution",
    "C03_ring_laws"
   ],
   "note": "Over any commutative ring; construction of the pair table as written; hypothesis simplex_idx = Some is discharged for d=3 by C04."
  },
  {
   "property": "C04",
   "status": "proved",
   "theorems": [
    "C04_capacity_exact_three_variables",
    "C04_other_dimensions_refuted"
   ],
   "note": "Three variables, all orders up to the 16 bit limit; failing dimensions d=1,2,4 shown in the _refuted theorem."
  },
  {
   "property": "C05",
   "status": "proved",
   "theorems": [
    "C05_power_laws",
    "C05_power_laws_refuted"
   ],
   "note": "Real exponents, constant term 1; the general statement is false, see _refuted."
  },
  {
   "property": "C06",
   "status": "proved",
   "theorems": [
    "C06_evaluation_value",
    "C06_evaluation_table_size",
    "C06_evaluation_of_product",
    "C06_order_one_refuted"
   ],
   "note": "Any commutative ring; order 1 out-of-bounds write is the _refuted theorem."
  },
  {
   "property": "C07",
   "status": "proved",
   "theorems": [
    "C07_coefficients_determined",
    "C07_transform_composes",
    "C07_transform_identity",
    "C07_transform_is_substitution",
    "C07_transform_refuted"
   ],
   "note": "Any dimension and order under the stated 16 bit bound on multinomials; bound holds for d=3, m<=13 (Example), wrap-around at degree 13 is the _refuted theorem."
  },
  {
   "property": "C08",
   "status": "proved",
   "theorems": [
    "C08_frames_rigid",
    "C08_tilt_order"
   ],
   "note": "All directions, angles, offsets and setter histories; direction image exact outside the allclose band and within 3e-8 inside it."
  },
  {
   "property": "C09",
   "status": "proved",
   "theorems": [
    "C09_flags",
    "C09_normal_form",
    "C09_offset_roundtrip",
    "C09_distance_keeps_line",
    "C09_direction_angles"
   ],
   "note": "All setter histories."
  },
  {
   "property": "C10",
   "status": "proved",
   "theorems": [
    "C10_any_ratio",
    "C10_snell",
    "C10_snell_surface"
   ],
   "note": "All unit incident directions, unnormalised normals, positive indices; at surfaces and (C16_surface_laws) along whole traces."
  },
  {
   "property": "C11",
   "status": "proved",
   "theorems": [
    "C11_reflection",
    "C11_mirror_surface"
   ],
   "note": "All unit directions and non-zero normals."
  },
  {
   "property": "C12",
   "status": "proved",
   "theorems": [
    "C12_other_side_reversible",
    "C12_against_normal_refuted"
   ],
   "note": "Reversibility for u0.N >= 0; the unrestricted statement is false, see _refuted."
  },
  {
   "property": "C13",
   "status": "proved",
   "theorems": [
    "C13_on_surface",
    "C13_found",
    "C13_missed",
    "C13_paraboloid_refuted"
   ],
   "note": "Analytic (no aspheric terms) intersection with both root choices; paraboloid with axial ray fails, see _refuted."
  },
  {
   "property": "C14",
   "status": "proved",
   "theorems": [
    "C14_normal_is_gradient",
    "C14_domain"
   ],
   "note": "Any number of even aspheric terms, any conic; gradient as directional derivative in every direction."
  },
  {
   "property": "C15",
   "status": "proved",
   "theorems": [
    "C15_valid_inside",
    "C15_lost_stays_lost",
    "C15_clip_conservative"
   ],
   "note": "Whole traces, any system, any root finder for the aspheric surfaces."
  },
  {
   "property": "C16",
   "status": "proved",
   "theorems": [
    "C16_unit_directions",
    "C16_on_surface",
    "C16_on_asphere",
    "C16_straight_lines",
    "C16_surface_laws"
   ],
   "note": "Whole traces through arbitrarily placed and tilted elements; aspheric surfaces under the hypothesis that the external root finder returns roots."
  },
  {
   "property": "C17",
   "status": "proved",
   "theorems": [
    "C17_element_symplectic",
    "C17_lagrange_invariant",
    "C17_system_symplectic",
    "C17_azimuth_refuted"
   ],
   "note": "Every element, exact characterisation: symplectic iff the tilt azimuth is a multiple of 90 degrees; invariant along every system. Failure otherwise is the _refuted theorem."
  },
  {
   "property": "C18",
   "status": "proved",
   "theorems": [
    "C18_compose",
    "C18_index",
    "C18_ray_is_matrix",
    "C18_start_zero_refuted"
   ],
   "note": "All sub-ranges with start >= 1; start = 0 uses the index after the last element, see _refuted."
  },
  {
   "property": "C19",
   "status": "proved",
   "theorems": [
    "C19_paraxial_limit",
    "C19_mirror_defect",
    "C19_immersed_mirror_refuted"
   ],
   "note": "Every centred refracting conic system, every differentiable family of rays through the axis, every element. Exact defect at a mirror and the immersed mirror counterexample are separate theorems. Aspheric surfaces (external root finder) are not covered."
  },
  {
   "property": "C20",
   "status": "proved",
   "theorems": [
    "C20_trace_scales",
    "C20_surface_scales",
    "C20_rescale_inverse",
    "C20_applies"
   ],
   "note": "All conic systems unconditionally; aspheric surfaces for root finders that are scale free (scipy newton is so up to its absolute tolerance). Pupil and conjugate rescaling: C26."
  },
  {
   "property": "C21",
   "status": "proved",
   "theorems": [
    "C21_twice",
    "C21_layout",
    "C21_stop_refuted"
   ],
   "note": "Exact characterisation of when reversing twice restores the element list; the stop index is not remapped: _refuted."
  },
  {
   "property": "C22",
   "status": "proved",
   "theorems": [
    "C22_inverse",
    "C22_stop_refuted",
    "C22_mirror_refuted"
   ],
   "note": "All untilted refracting systems of any length with a material on every element but the last. Material-less stops and mirrors: the _refuted theorems."
  },
  {
   "property": "C23",
   "status": "proved",
   "theorems": [
    "C23_stop",
    "C23_exit_pupil",
    "C23_wideangle_refuted",
    "C23_field",
    "C23_field_image"
   ],
   "note": "All systems tilted about x only, every pupil kind, finite and rectilinear infinite objects, object and image side. Wide angle objects: _refuted."
  },
  {
   "property": "C24",
   "status": "proved",
   "theorems": [
    "C24_focal_length",
    "C24_aspheric_refuted"
   ],
   "note": "Object at infinity, untilted conic last refracting surface. Aspheric last surface: _refuted."
  },
  {
   "property": "C25",
   "status": "proved",
   "theorems": [
    "C25_in_focus",
    "C25_virtual_refuted"
   ],
   "note": "Every upright system. The virtual image case: exact behaviour in the _refuted theorem."
  },
  {
   "property": "C26",
   "status": "proved",
   "theorems": [
    "C26_consistent",
    "C26_set_radius",
    "C26_set_own",
    "C26_update",
    "C26_update_kept",
    "C26_rescale",
    "C26_conjugate_slope"
   ],
   "note": "All four pupil kinds, both conjugate kinds."
  },
  {
   "property": "C27",
   "status": "proved",
   "theorems": [
    "C27_finite",
    "C27_finite_chief",
    "C27_telecentric_chief_refuted",
    "C27_disc",
    "C27_vignetted",
    "C27_finite_pupil",
    "C27_finite_pupil_behind_refuted",
    "C27_projection",
    "C27_equidistant_refuted",
    "C27_infinite",
    "C27_pupil_at_vertex_refuted",
    "C27_scale",
    "C27_finite_bundle",
    "C27_finite_bundle_chief",
    "C27_infinite_bundle",
    "C27_equidistant_side",
    "C27_flat_pupil_refuted"
   ],
   "note": "Every field and pupil coordinate, finite and infinite objects, all projections; the intercept with an aspheric first surface is the root finder oracle. Failures: the _refuted theorems."
  },
  {
   "property": "C28",
   "status": "proved",
   "theorems": [
    "C28_exact",
    "C28_lengths",
    "C28_grids",
    "C28_quadrature",
    "C28_disc",
    "C28_centre",
    "C28_count",
    "C28_meridional_refuted",
    "C28_small_cross_refuted",
    "C28_positions"
   ],
   "note": "All patterns and ray counts; random numbers and quadrature nodes are oracles with the stated ranges. meridional fans and crosses with 2 or 3 rays: _refuted."
  },
  {
   "property": "C29",
   "status": "proved",
   "theorems": [
    "C29_pupil",
    "C29_nickname_refuted",
    "C29_conjugate",
    "C29_conjugate_refuted",
    "C29_element",
    "C29_element_refuted",
    "C29_system",
    "C29_fields_refuted",
    "C29_degrees",
    "C29_types",
    "C29_terse",
    "C29_shorthand",
    "C29_default_system",
    "C29_default_fields",
    "C29_defaults",
    "C29_projections"
   ],
   "note": "Pupils, conjugates, spheroid elements and systems, every attribute value. Lost attributes and unreadable dictionaries: _refuted."
  },
  {
   "property": "C30",
   "status": "proved",
   "theorems": [
    "C30_pupil",
    "C30_pupil_refuted",
    "C30_conjugate_refuted",
    "C30_nested"
   ],
   "note": "Pupils for every dictionary; pupils and conjugates carrying a type key: _refuted."
  },
  {
   "property": "C31",
   "status": "proved",
   "theorems": [
    "C31_values",
    "C31_unmodified",
    "C31_bounded",
    "C31_stale_refuted"
   ],
   "note": "Any history of queries and parameter changes, any cache size. After a parameter change old values are still returned: _refuted."
  },
  {
   "property": "C32",
   "status": "proved",
   "theorems": [
    "C32_gas",
    "C32_gas_offset",
    "C32_conrady",
    "C32_herzberger",
    "C32_handbook1",
    "C32_handbook2",
    "C32_retro",
    "C32_exotic",
    "C32_refractiveindex_info",
    "C32_lines",
    "C32_units",
    "C32_air",
    "C32_air_vd",
    "C32_abbe",
    "C32_abbe_infinite",
    "C32_vd",
    "C32_other_lines_refuted",
    "C32_sellmeier",
    "C32_handbook",
    "C32_schott",
    "C32_odd_length"
   ],
   "note": "Coefficient lists of any length. Custom lines versus vd: _refuted."
  },
  {
   "property": "C33",
   "status": "proved",
   "theorems": [
    "C33_first_value",
    "C33_interpolator",
    "C33_interpolator_exact",
    "C33_table",
    "C33_total",
    "C33_solver_values",
    "C33_guess_refuted",
    "C33_clear_refuted",
    "C33_failed_query_refuted",
    "C33_start",
    "C33_failed",
    "C33_nd_first_value",
    "C33_nd_entries",
    "C33_nearest_start",
    "C33_linear_start",
    "C33_linear_exact",
    "C33_abstract",
    "C33_nd_values",
    "C33_nd_stale_refuted"
   ],
   "note": "Any history of queries and clears; any sorted table. clear keeping the table, ignored guess, failed queries writing into the table: _refuted."
  },
  {
   "property": "C34",
   "status": "proved",
   "theorems": [
    "C34_angle_conserves",
    "C34_angle_bins",
    "C34_angle_axes",
    "C34_azimuthal",
    "C34_radial",
    "C34_radial_large_bin_refuted",
    "C34_radial_partial_bin_refuted",
    "C34_angle_no_gap",
    "C34_negative_bin",
    "C34_angle_symmetry",
    "C34_angle_reversed",
    "C34_angle_diagonals"
   ],
   "note": "Any image size. Radial sums with bins larger than, or not dividing, the circle: _refuted."
  },
  {
   "property": "C35",
   "status": "proved",
   "theorems": [
    "C35_involution",
    "C35_injective",
    "C35_roundtrip",
    "C35_rejects",
    "C35_version",
    "C35_stream",
    "C35_decimal"
   ],
   "note": "Any key stream and double decoding (oracles); any number of records."
  },
  {
   "property": "C36",
   "status": "proved",
   "theorems": [
    "C36_atomic",
    "C36_replaces",
    "C36_invariant",
    "C36_current",
    "C36_same_size_refuted",
    "C36_several_refuted",
    "C36_pending_refuted",
    "C36_other_mode"
   ],
   "note": "Any sequence of loads with any file systems and parser failures. Same-size changes, multi-catalog parsers, missing parsers: _refuted."
  },
  {
   "property": "C37",
   "status": "proved",
   "theorems": [
    "C37_evaluations",
    "C37_reject",
    "C37_accept",
    "C37_objective",
    "C37_inequality",
    "C37_equality",
    "C37_equal_limits_refuted",
    "C37_bounds",
    "C37_default_scale",
    "C37_negative_scale_refuted",
    "C37_variable",
    "C37_recorded",
    "C37_cache"
   ],
   "note": "minimize is an arbitrary strategy asking for objective, constraints and trace records; operands are arbitrary functions of the system. Refuted: equal limits other than zero are infeasible; negative scales reverse the bounds."
  },
  {
   "property": "C38",
   "status": "proved",
   "theorems": [
    "C38_textbook",
    "C38_default",
    "C38_rotated",
    "C38_refocus",
    "C38_normal_aligned",
    "C38_normal_spot",
    "C38_normal_refuted",
    "C38_eigenmodes",
    "C38_stable",
    "C38_eigenvalues",
    "C38_proper",
    "C38_proper_tolerance",
    "C38_sections",
    "C38_composition",
    "C38_system",
    "C38_rays",
    "C38_rays_determine",
    "C38_physical",
    "C38_system_physical",
    "C38_free_space",
    "C38_between",
    "C38_before",
    "C38_at_surface_refuted",
    "C38_principal",
    "C38_normal_values"
   ],
   "note": "Complex numbers and 2x2 matrices over R are defined in Cx.v. np.roots is an oracle whose contract (every root solves the polynomial) is a hypothesis of the eigenmode theorem. Confined means the imaginary part of the inverse radius matrix is negative definite. Refuted: beam exactly at a surface, principal-axes form of rotated beams."
  },
  {
   "property": "C39",
   "status": "proved",
   "theorems": [
    "C39_get_set",
    "C39_set_get",
    "C39_set_set",
    "C39_get_other",
    "C39_commute",
    "C39_writable",
    "C39_pickups",
    "C39_pickup_order_refuted",
    "C39_solve",
    "C39_validate",
    "C39_fix",
    "C39_fix_same_place_refuted",
    "C39_index",
    "C39_solve_start",
    "C39_pickup_null"
   ],
   "note": "Trees of attributes and list items; Newton is an arbitrary strategy choosing evaluation points. Keys carrying Python source (get_eval, get_func, set_exec, exec) are not modelled. Refuted: pickup chain in the wrong order, two validators of one place."
  },
  {
   "property": "C40",
   "status": "proved",
   "theorems": [
    "C40_merit_bound",
    "C40_unlimited",
    "C40_unlimited_stop",
    "C40_pupil_step",
    "C40_newton_start",
    "C40_newton",
    "C40_bracket",
    "C40_assertion",
    "C40_positive",
    "C40_last_round_refuted",
    "C40_marginal_at_stop",
    "C40_marginal_at_rim",
    "C40_explicit_stop_refuted",
    "C40_chief",
    "C40_chief_symmetric",
    "C40_small_field_refuted",
    "C40_no_aiming",
    "C40_pupil",
    "C40_unlimited_chief"
   ],
   "note": "Merit functions with NaN as None; newton and brentq are oracles, their contracts are hypotheses of the aiming theorems; traced rays are oracles. Refuted: last round, explicit stop index, small fields."
  },
  {
   "property": "C41",
   "status": "proved",
   "theorems": [
    "C41_origins",
    "C41_bound",
    "C41_close",
    "C41_mirrored"
   ],
   "note": "Placements with vectors over R; close goes through the offset setter."
  },
  {
   "property": "C42",
   "status": "proved",
   "theorems": [
    "C42_rotation_matrix",
    "C42_euler_matrix",
    "C42_euler_round_trip",
    "C42_quaternion_algebra",
    "C42_quaternion_matrix",
    "C42_quaternion_from_matrix_refuted",
    "C42_uninitialised_refuted"
   ],
   "note": "Euler round trip exact outside the code's own gimbal-lock band, 2*_EPS inside; the eigenvector branch of quaternion_from_matrix is C74; isprecise branch wrong for non-positive trace, see _refuted."
  },
  {
   "property": "C43",
   "status": "proved",
   "theorems": [
    "C43_taylor",
    "C43_path",
    "C43_evaluate",
    "C43_finite",
    "C43_paraxial",
    "C43_zero_distance_refuted",
    "C43_conic_refuted",
    "C43_path_refuted",
    "C43_asphere_refuted",
    "C43_telecentric_refuted",
    "C43_asphere_hit",
    "C43_plane_asphere",
    "C43_rounds_refuted",
    "C43_infinite"
   ],
   "note": "Real arithmetic. Surfaces: untilted spheres and planes, refracting, reflecting or without material. Aspheric terms on a plane: C43_plane_asphere for one intersection, truncation order up to the number of terms plus one. The refuted theorems show the cases that disagree with the exact trace: sphere at zero distance, conic constant, aspheric terms on a curved surface, fewer aspheric terms than the truncation order needs rounds, path behind a mirror, telecentric flag. seidel is C65; printing is C83."
  },
  {
   "property": "C44",
   "status": "proved",
   "theorems": [
    "C44_partition",
    "C44_runs",
    "C44_mirror_refuted"
   ],
   "note": "Elements are Plain or Spheroid as in ElementModel; the generator is modelled by the list it yields."
  },
  {
   "property": "C45",
   "status": "proved",
   "theorems": [
    "C45_table",
    "C45_text",
    "C45_shift",
    "C45_long_line_refuted",
    "C45_zmx",
    "C45_zmx_count",
    "C45_zmx_stop_refuted",
    "C45_zmx_glass_refuted",
    "C45_zmx_infinity_refuted"
   ],
   "note": "tables, text and ZMX command lists of any content; the text of ZMX files is C92. Findings refuted: ZMX stop is not the system stop, unknown glass becomes air, infinite thickness, one long text line drops the others"
  },
  {
   "property": "C46",
   "status": "proved",
   "theorems": [
    "C46_frame",
    "C46_axis_refuted"
   ],
   "note": "Every non-zero direction. Rays parallel to a reference axis other than z: _refuted."
  },
  {
   "property": "C47",
   "status": "proved",
   "theorems": [
    "C47_least_squares",
    "C47_lost_rays",
    "C47_moves",
    "C47_refocus",
    "C47_refocus_twice",
    "C47_weighted_refuted"
   ],
   "note": "Real arithmetic, lost rays are None. The plane image element is untilted and stays in front (distance not negative). The refuted theorem shows that the displacement is not optimal for the spread about the weighted centroid."
  },
  {
   "property": "C48",
   "status": "proved",
   "theorems": [
    "C48_sound_complete",
    "C48_rows",
    "C48_first",
    "C48_kinds",
    "C48_nocase"
   ],
   "note": "Any database and query; case-insensitive names as in the column collation."
  },
  {
   "property": "C49",
   "status": "proved",
   "theorems": [
    "C49_focal_length",
    "C49_focal_points",
    "C49_magnification",
    "C49_immersed_refuted"
   ],
   "note": "Every upright system, compared with independently traced rays. Different end media: _refuted."
  },
  {
   "property": "C50",
   "status": "proved",
   "theorems": [
    "C50_thermal_formula",
    "C50_thermal",
    "C50_default_wavelength_refuted"
   ],
   "note": "Default wavelength: _refuted."
  },
  {
   "property": "C51",
   "status": "proved",
   "theorems": [
    "C51_align",
    "C51_mirror",
    "C51_system",
    "C51_excidence",
    "C51_ratio_one_refuted"
   ],
   "note": "Real arithmetic; hypotheses keep directions out of the tolerance bands of np.allclose, where the stored frame is only approximate. The refuted theorem covers ratio one without a mirror, which is what System.align applies to the object surface."
  },
  {
   "property": "C52",
   "status": "proved",
   "theorems": [
    "C52_resize",
    "C52_rims",
    "C52_doublet_refuted",
    "C52_edge"
   ],
   "note": "Radii are a store by position, infinity is None. The refuted theorem shows the cemented doublet whose convex front stays too small."
  },
  {
   "property": "C53",
   "status": "proved",
   "theorems": [
    "C53_pupils",
    "C53_angular_magnification",
    "C53_nodal_points",
    "C53_launched",
    "C53_rescaled_launch",
    "C53_medium",
    "C53_medium_air"
   ],
   "note": "Pupil images, angular magnification, nodal points in air, launched rays and media lookup for centred systems; wide angle object projections are excluded from the launch theorems (see C23)."
  },
  {
   "property": "C54",
   "status": "proved",
   "theorems": [
    "C54_default_sphere",
    "C54_meaning",
    "C54_stigmatic",
    "C54_reference",
    "C54_launch",
    "C54_after_last_refuted"
   ],
   "note": "Resampling by griddata is not part of opd here. Rays are placed through the exact frames of the elements. Refuted: after=-1 drops every optical path."
  },
  {
   "property": "C55",
   "status": "proved",
   "theorems": [
    "C55_total",
    "C55_peak",
    "C55_shift",
    "C55_coordinates",
    "C55_pixels"
   ],
   "note": "numpy.fft.fft2 is taken to compute the defining double sum; the interpolated wave front is an arbitrary function on the grid with missing pixels."
  },
  {
   "property": "C56",
   "status": "proved",
   "theorems": [
    "C56_third_order",
    "C56_transverse3",
    "C56_transverse3_sign_refuted",
    "C56_petzval",
    "C56_conic",
    "C56_aplanatic",
    "C56_departure",
    "C56_one_term_refuted"
   ],
   "note": "Exact trace expanded to third order for centred refracting conics; mirrors and aspheres only through the single surface theorems. Findings: sign of transverse3 follows |chief height|; one aspheric term raises."
  },
  {
   "property": "C57",
   "status": "proved",
   "theorems": [
    "C57_chromatic",
    "C57_stop_in_glass_refuted",
    "C57_transverse"
   ],
   "note": "Derivative of the paraxial trace; finding: a material-less element inside dispersive glass resets the dispersion to zero; the object medium is taken as dispersion free."
  },
  {
   "property": "C58",
   "status": "proved",
   "theorems": [
    "C58_aperture",
    "C58_sine_condition",
    "C58_f_number",
    "C58_units",
    "C58_points",
    "C58_points_unit_refuted",
    "C58_f_number_image",
    "C58_diffraction"
   ],
   "note": "Resolution figures as functions of a given paraxial trace. The unit dependence of number_of_points is a finding (refuted theorem)."
  },
  {
   "property": "C59",
   "status": "proved",
   "theorems": [
    "C59_paraxial",
    "C59_passes",
    "C59_tight"
   ],
   "note": "Paraxial sizing for upright elements; geometric sizing for any element list, the intercept solver being an arbitrary function."
  },
  {
   "property": "C60",
   "status": "proved",
   "theorems": [
    "C60_paraxial_rays",
    "C60_paraxial_rays_immersed_refuted",
    "C60_stop_object",
    "C60_stop_image",
    "C60_stop_image_infinite_refuted",
    "C60_stop_immersed_refuted",
    "C60_stop_sign_refuted",
    "C60_clipping_infinite",
    "C60_clipping_finite",
    "C60_clipping_asymmetric_refuted"
   ],
   "note": "update_stop after update_conjugates in air; refuted theorems give the cases where the code loses index or sign."
  },
  {
   "property": "C61",
   "status": "proved",
   "theorems": [
    "C61_words",
    "C61_agf_record",
    "C61_agf_index",
    "C61_agf_missing_refuted",
    "C61_agf_sellmeier4_refuted",
    "C61_agf_range_refuted",
    "C61_agf_thermal_refuted",
    "C61_agf_read",
    "C61_agf_accepts",
    "C61_agf",
    "C61_glc",
    "C61_rii",
    "C61_rii_retro_refuted",
    "C61_rii_tabulated_refuted",
    "C61_rii_gas_pairing",
    "C61_rii_gas_refuted",
    "C61_agf_number",
    "C61_agf_thermal_fields",
    "C61_agf_transmission",
    "C61_agf_rows",
    "C61_glc_count"
   ],
   "note": "Text splitting, AGF reading (exact acceptance condition, lossless distribution of lines), record fields and formula laws for all files and parsers. Refuted parts are stated: AGF formulas 4, 10, 11 have no index; formula 9 adds one to n^2; LD range read from single characters; TD reference temperature and wavelength exchanged; refractiveindex.info formula 8 and multi-term formula 6 compute another index; tabulated-only pages have index one."
  },
  {
   "property": "C62",
   "status": "proved",
   "theorems": [
    "C62_len",
    "C62_header",
    "C62_len_accepts",
    "C62_olc",
    "C62_thickness_refuted",
    "C62_plane_refuted",
    "C62_stop_refuted",
    "C62_unbound_refuted",
    "C62_carry_refuted",
    "C62_open_refuted",
    "C62_apertures"
   ],
   "note": "LEN: exact acceptance condition and every element of every accepted file. OLC: every element of every accepted lens. Printing of unknown commands is left out."
  },
  {
   "property": "C63",
   "status": "proved",
   "theorems": [
    "C63_from_axis",
    "C63_vertices",
    "C63_vertices_start",
    "C63_isometry",
    "C63_axis_length",
    "C63_paraxial"
   ],
   "note": "Directions within 1e-8 of the z axis but not on it are excluded by hypothesis (C08 gives the error there). The order of points along the reference ray is assumed, as np.searchsorted does."
  },
  {
   "property": "C64",
   "status": "proved",
   "theorems": [
    "C64_cut",
    "C64_cut_refuted",
    "C64_closed",
    "C64_outlines",
    "C64_solids_closed",
    "C64_complete",
    "C64_placed",
    "C64_cut_plain",
    "C64_system"
   ],
   "note": "Apertures are finite and profiles have values (no NaN). The flat drawing of curved surfaces without material is a finding (refuted theorem)."
  },
  {
   "property": "C65",
   "status": "proved",
   "theorems": [
    "C65_fifth_order",
    "C65_seidel_short",
    "C65_m9_refuted",
    "C65_seidel",
    "C65_coma",
    "C65_buchdahl_values",
    "C65_extend_self",
    "C65_buchdahl_refuted",
    "C65_finite",
    "C65_buchdahl_signs",
    "C65_buchdahl_short"
   ],
   "note": "Seidel listing of the polynomial trace = third order sums of the paraxial trace (infinite and finite objects), via the exact rays; the Buchdahl listing does not terminate (refuted), its values are characterised. The fifth order entries are the coefficients of the exact rays in Buchdahl's form (C65_fifth_order), with the sign of m9 reversed (C65_m9_refuted)."
  },
  {
   "property": "C66",
   "status": "proved",
   "theorems": [
    "C66_transverse",
    "C66_tee",
    "C66_spots",
    "C66_foci",
    "C66_colour_focus",
    "C66_colour_focus_refuted",
    "C66_colour_shift",
    "C66_rays_line",
    "C66_distortion",
    "C66_heights",
    "C66_lateral_colour",
    "C66_spherical",
    "C66_distortion_limit",
    "C66_field_curves",
    "C66_options",
    "C66_unknown_option",
    "C66_run_option_refuted",
    "C66_known"
   ],
   "note": "Fans, spots, foci, rays_line and colour shift for all inputs; third order limits for centred conic refracting systems with paraxially linear launch. Two refutations: sign of the colour focus for backward rays, run=True option."
  },
  {
   "property": "C67",
   "status": "proved",
   "theorems": [
    "C67_contrast",
    "C67_frequency",
    "C67_encircled",
    "C67_radius_refuted"
   ],
   "note": "Contrast = modulus of the autocorrelation of the pupil function; bounds, perfect wavefront, frequency scale; encircled energy entries, monotonicity, limit one. The claim that entry k belongs to the radius it is drawn at is refuted (C67_radius_refuted)."
  },
  {
   "property": "C68",
   "status": "proved",
   "theorems": [
    "C68_hamilton",
    "C68_regular",
    "C68_malus",
    "C68_ray_aberration"
   ],
   "note": "The general relation takes differentiability of the family and hits on the surface as hypotheses (aspheres included); for closed form surfaces both are derived from one ray that grazes nothing and keeps inside the apertures. The launch of the family is from one point or wave front for the statements on wave fronts."
  },
  {
   "property": "C69",
   "status": "proved",
   "theorems": [
    "C69_lagrange",
    "C69_regular",
    "C69_etendue",
    "C69_sine_condition"
   ],
   "note": "Exact ray trace over R (C16 model). C69_lagrange takes the differentiability of the families and arrival on the surfaces as hypotheses (so aspheres via the solver contract are covered); C69_regular, C69_etendue and C69_sine_condition need only a base ray that grazes nothing (conics)."
  },
  {
   "property": "C70",
   "status": "proved",
   "theorems": [
    "C70_symmetric",
    "C70_meridional",
    "C70_axial",
    "C70_skew"
   ],
   "note": "Exact ray trace over R; Newton oracle is applied to functions, functional extensionality identifies the rotated ones. Coaxial means zero decentre and axis mapped to plus or minus axis by the placement rotation."
  },
  {
   "property": "C71",
   "status": "proved",
   "theorems": [
    "C71_translation",
    "C71_reflection",
    "C71_rotation",
    "C71_scale",
    "C71_parallel",
    "C71_perspective",
    "C71_pseudo",
    "C71_clip_box",
    "C71_clip_frustum",
    "C71_shear",
    "C71_cell",
    "C71_concatenate",
    "C71_vector_norm",
    "C71_angle",
    "C71_same",
    "C71_same_refuted",
    "C71_same_clip_refuted",
    "C71_same_entries"
   ],
   "note": "Over R, arguments of three entries. The converse of the comparison is refuted (C71_same_refuted), its reflexivity for perspective clipping matrices too (C71_same_clip_refuted)."
  },
  {
   "property": "C72",
   "status": "proved",
   "theorems": [
    "C72_collimated",
    "C72_only_conic",
    "C72_point_source",
    "C72_mirror_foci",
    "C72_paraboloid",
    "C72_aplanatic",
    "C72_centre",
    "C72_spot"
   ],
   "note": "Exact imaging by conics, derived from the traced intersection and refraction; the paraboloid with light parallel to the axis is lost by the code (finding under C13), the other direction is proved here."
  },
  {
   "property": "C73",
   "status": "proved",
   "theorems": [
    "C73_beam_restart",
    "C73_ray_restart",
    "C73_ray_restart_refuted",
    "C73_track",
    "C73_track_refuted",
    "C73_eigenrays",
    "C73_eigenvalues",
    "C73_second_solve_refuted",
    "C73_diverging",
    "C73_confined",
    "C73_stigmatic",
    "C73_stigmatic_refuted",
    "C73_resize",
    "C73_pupil_fresh",
    "C73_pupil_stale_refuted"
   ],
   "note": "np.linalg.eig is an oracle with the contract that it returns eigenpairs; the aiming of a pupil is an oracle whose result does not depend on the start value."
  },
  {
   "property": "C74",
   "status": "proved",
   "theorems": [
    "C74_slerp",
    "C74_slerp_close",
    "C74_slerp_scale",
    "C74_slerp_zero",
    "C74_slerp_odd_refuted",
    "C74_random",
    "C74_parts",
    "C74_euler_quaternion",
    "C74_from_matrix",
    "C74_sphere",
    "C74_constrain",
    "C74_constrain_none",
    "C74_constrain_refuted",
    "C74_constrain_nearest",
    "C74_constrain_nearest_refuted",
    "C74_nearest",
    "C74_half_turn",
    "C74_drag",
    "C74_drag_path",
    "C74_drag_compose",
    "C74_next",
    "C74_next_iterate",
    "C74_ball",
    "C74_setaxes_refuted",
    "C74_ball_total"
   ],
   "note": "numpy.linalg.eigh is an oracle with the contract that it returns unit eigenvectors, among them one of the largest eigenvalue; random numbers are inputs."
  },
  {
   "property": "C75",
   "status": "proved",
   "theorems": [
    "C75_compose",
    "C75_decompose",
    "C75_decompose_compose",
    "C75_decompose_refuted"
   ],
   "note": "numpy.linalg.inv is an oracle with the contract that it returns an inverse; the singularity test is exact."
  },
  {
   "property": "C76",
   "status": "proved",
   "theorems": [
    "C76_reflection",
    "C76_scale_direction",
    "C76_scale_uniform",
    "C76_rotation",
    "C76_parallel",
    "C76_perspective",
    "C76_pseudo",
    "C76_shear",
    "C76_perspective_refuted",
    "C76_pseudo_refuted",
    "C76_rotation_refuted"
   ],
   "note": "numpy.linalg.eig is an oracle with the contract that it returns unit eigenpairs and every real eigenvalue; the sides where it fails are stated as refuted."
  },
  {
   "property": "C77",
   "status": "proved",
   "theorems": [
    "C77_best_motion",
    "C77_scaled",
    "C77_exact",
    "C77_refused",
    "C77_affine",
    "C77_scale_refuted",
    "C77_three_points_refuted"
   ],
   "note": "Points in three dimensions; the singular value, eigenvalue, pseudo-inverse and inverse routines are oracles with contracts as hypotheses at the matrix used. C77_scale_refuted and C77_three_points_refuted record where the docstring is not met."
  },
  {
   "property": "C78",
   "status": "proved",
   "theorems": [
    "C78_choose",
    "C78_oslo_refresh_refuted",
    "C78_dir_rows",
    "C78_dir_section",
    "C78_dir_comment_refuted",
    "C78_dir_name_refuted",
    "C78_dir_data",
    "C78_dir_offset_refuted",
    "C78_codev_read",
    "C78_codev_material",
    "C78_codev_name",
    "C78_codev_name_refuted",
    "C78_rii",
    "C78_endings",
    "C78_codev_equation",
    "C78_codev_formula",
    "C78_recorded_refresh",
    "C78_bytes_literal",
    "C78_bytes_injective"
   ],
   "note": "Documents are modelled after numpy, XML and YAML have read them. The _refuted theorems record the defects of the importers."
  },
  {
   "property": "C79",
   "status": "proved",
   "theorems": [
    "C79_mirrors_image",
    "C79_corner_cube",
    "C79_two_mirrors",
    "C79_mirrors_survive",
    "C79_layers_survive",
    "C79_layers",
    "C79_plate"
   ],
   "note": "All systems of plane mirrors and of plane layers with a common normal, any rays, with and without apertures; survival is stated without apertures. Rays against the normal of a refracting surface: C12_against_normal_refuted."
  },
  {
   "property": "C80",
   "status": "proved",
   "theorems": [
    "C80_stop_shift",
    "C80_enlarged",
    "C80_stop_position",
    "C80_launch",
    "C80_reversed",
    "C80_symmetric"
   ],
   "note": "stop shift and enlargement for whole traces; reversed and symmetric systems for refracting untilted surfaces; colour statements of reversal need dispersion free outer media, as the code starts with dispersion zero"
  },
  {
   "property": "C81",
   "status": "proved",
   "theorems": [
    "C81_moment",
    "C81_distance",
    "C81_turned",
    "C81_ball",
    "C81_far_half_refuted"
   ],
   "note": "surfaces met on the half that holds the vertex, as hypothesis; behaviour on the far half refuted"
  },
  {
   "property": "C82",
   "status": "proved",
   "theorems": [
    "C82_fermat",
    "C82_ray_is_stationary",
    "C82_stationary_is_ray"
   ],
   "note": "C82_fermat gives the first variation with free ends, C82_ray_is_stationary with fixed ends, C82_stationary_is_ray the converse"
  },
  {
   "property": "C83",
   "status": "proved",
   "theorems": [
    "C83_element_table",
    "C83_table_exists",
    "C83_coeffs",
    "C83_relative_path",
    "C83_transverse3",
    "C83_paraxial",
    "C83_seidel",
    "C83_poly_lines",
    "C83_names",
    "C83_texts",
    "C83_plain_refuted",
    "C83_mirror_refuted",
    "C83_relative_path_refuted",
    "C83_geometric",
    "C83_monomials"
   ],
   "note": "element table, coefficient, paraxial, geometric and polynomial reports and the texts of pupils and conjugates before number formatting; plain elements, mirror lines and the relative path refuted"
  },
  {
   "property": "C84",
   "status": "proved",
   "theorems": [
    "C84_sagittal",
    "C84_tangential",
    "C84_vergence",
    "C84_parallel",
    "C84_focus",
    "C84_transfer",
    "C84_curvatures"
   ],
   "note": "The pencils are arbitrary differentiable families of rays; the curvatures are derived from the surface equation and the law of refraction from the code."
  },
  {
   "property": "C85",
   "status": "proved",
   "theorems": [
    "C85_folded",
    "C85_other_tilt_refuted"
   ],
   "note": "Includes C85_other_tilt_refuted: the second tilt angle is missing in the matrices."
  },
  {
   "property": "C86",
   "status": "proved",
   "theorems": [
    "C86_power_sum",
    "C86_lens",
    "C86_combination",
    "C86_newton",
    "C86_gauss"
   ],
   "note": "power sum, lens maker, two groups, Newton and Gauss forms, all from the figures the trace reports; systems in air as the properties state"
  },
  {
   "property": "C87",
   "status": "proved",
   "theorems": [
    "C87_minimum_deviation",
    "C87_index"
   ],
   "note": "minimum deviation with equality case for skew rays too, and the index formula"
  },
  {
   "property": "C88",
   "status": "proved",
   "theorems": [
    "C88_round_trips",
    "C88_stable",
    "C88_two_mirrors",
    "C88_confocal_refuted",
    "C88_real_refuted"
   ],
   "note": "boundedness over all numbers of round trips; confocal resonators and the attribute real refuted"
  },
  {
   "property": "C89",
   "status": "proved",
   "theorems": [
    "C89_fast_is_substitution",
    "C89_fast_is_transform",
    "C89_fast_is_poly_transform"
   ],
   "note": "Function is not called in the repository; C ints unbounded. Equality with simplex_transform under the bound of C07."
  },
  {
   "property": "C90",
   "status": "proved",
   "theorems": [
    "C90_retraced",
    "C90_returns"
   ],
   "note": "exact trace of the reversed system; mirrors and stops without material are excluded, for those reverse() itself is wrong (C22)"
  },
  {
   "property": "C91",
   "status": "proved",
   "theorems": [
    "C91_relay",
    "C91_spot"
   ],
   "note": "Every surface used between perfect conjugates, at any aperture and placement. Parallel light on a paraboloid needs the surface given as an asphere with vanishing terms, since the closed form loses the ray (finding under C13). Examples: a Cassegrain telescope with a marginal ray traced to the focus."
  },
  {
   "property": "C92",
   "status": "proved",
   "theorems": [
    "C92_splitlines",
    "C92_layout",
    "C92_reads",
    "C92_rejects",
    "C92_one_meaning",
    "C92_written",
    "C92_written_layout",
    "C92_tab_refuted",
    "C92_type_refuted"
   ],
   "note": "Characters below 128. float, int and Material.make are parameters; a number that is not finite is an error except as distance or radius. Findings: a tab behind a command hides it, surface types are skipped"
  },
  {
   "property": "C93",
   "status": "proved",
   "theorems": [
    "C93_average_unique",
    "C93_disc",
    "C93_pupil",
    "C93_half_refuted",
    "C93_radau",
    "C93_lobatto",
    "C93_degenerate",
    "C93_rules",
    "C93_radau_best",
    "C93_lobatto_best"
   ],
   "note": "The root finder of numpy is an oracle that finds all zeros of polynomials with only real zeros up to the degree needed; that these polynomials have only real simple zeros is proved. Legendre polynomials are exact, scipy computes them in floating point. Odd polynomials in x are refuted (half pupil)."
  },
  {
   "property": "C94",
   "status": "proved",
   "theorems": [
    "C94_normal",
    "C94_ultraviolet",
    "C94_abbe",
    "C94_lens",
    "C94_thin",
    "C94_achromat"
   ],
   "note": "normal dispersion is proved for positive strengths on intervals free of poles; the contact lens theorem idealises the thicknesses as zero, as does the classical condition"
  },
  {
   "property": "C95",
   "status": "proved",
   "theorems": [
    "C95_unique",
    "C95_newton",
    "C95_slope"
   ],
   "note": "the library routine scipy.optimize.newton is written from its documentation; reals instead of floats"
  },
  {
   "property": "C96",
   "status": "proved",
   "theorems": [
    "C96_thin_lens",
    "C96_best_form",
    "C96_bendable",
    "C96_stop_at_lens",
    "C96_asphere"
   ],
   "note": "thin lens: zero thickness between the two surfaces; vacuum on both sides"
  },
  {
   "property": "C97",
   "status": "proved",
   "theorems": [
    "C97_kept",
    "C97_found",
    "C97_success",
    "C97_again",
    "C97_one",
    "C97_first",
    "C97_public"
   ],
   "note": "files of other processes, permissions and links are left out; whether an address can be connected to is an oracle"
  },
  {
   "property": "C98",
   "status": "proved",
   "theorems": [
    "C98_mirrors",
    "C98_stigmatic",
    "C98_telescope",
    "C98_mersenne",
    "C98_sphere"
   ],
   "note": ""
  },
  {
   "property": "C99",
   "status": "proved",
   "theorems": [
    "C99_components",
    "C99_sums",
    "C99_eyepiece",
    "C99_contact"
   ],
   "note": "third order sums of any system of thin lenses and mirrors in air; Petzval and colour sums; eyepiece of one glass; lenses in contact"
  },
  {
   "property": "C100",
   "status": "proved",
   "theorems": [
    "C100_lookup",
    "C100_numbers",
    "C100_one_number_refuted",
    "C100_saved",
    "C100_basic",
    "C100_source",
    "C100_source_refuted",
    "C100_slash_refuted",
    "C100_reload",
    "C100_any_class",
    "C100_stable",
    "C100_thermal_refuted",
    "C100_thermal_data"
   ],
   "note": "names and dictionaries of materials; lookup order, reload, same index in every class; four refutations (single number, source with capitals, slash in a name, thermal coefficients)"
  },
  {
   "property": "C101",
   "status": "proved",
   "theorems": [
    "C101_waists",
    "C101_focus",
    "C101_collimation",
    "C101_between",
    "C101_afocal"
   ],
   "note": ""
  },
  {
   "property": "C102",
   "status": "proved",
   "theorems": [
    "C102_mode",
    "C102_reported"
   ],
   "note": "np.roots of a quadratic without real roots is assumed to list the root above the real axis first"
  },
  {
   "property": "C103",
   "status": "proved",
   "theorems": [
    "C103_imported",
    "C103_behind",
    "C103_singlet",
    "C103_singlet_behind",
    "C103_powers",
    "C103_zmx",
    "C103_bare",
    "C103_zmx_element"
   ],
   "note": "import composed with the paraxial trace; glass names are looked up by an arbitrary oracle; text is already split into words and numbers"
  },
  {
   "property": "C104",
   "status": "proved",
   "theorems": [
    "C104_marechal",
    "C104_rayleigh",
    "C104_perfect",
    "C104_contrast"
   ],
   "note": "numpy.fft.fft2 is taken to compute the discrete Fourier transform; the resampled wave front is an arbitrary function on the grid"
  },
  {
   "property": "C105",
   "status": "proved",
   "theorems": [
    "C105_exact",
    "C105_defocus",
    "C105_depth"
   ],
   "note": "Resampling of the errors onto the grid (scipy griddata) is not modelled; the depth of focus assumes only that its values lie between reported errors."
  },
  {
   "property": "C106",
   "status": "proved",
   "theorems": [
    "C106_elements",
    "C106_len",
    "C106_olc",
    "C106_len_singlet",
    "C106_olc_singlet",
    "C106_powers"
   ],
   "note": "Glass lookup, number parsing, upper() and the glass map are oracles; a LEN thickness above 100 is infinite (C62)."
  },
  {
   "property": "C107",
   "status": "proved",
   "theorems": [
    "C107_pattern",
    "C107_dark",
    "C107_core",
    "C107_contrast",
    "C107_cutoff"
   ],
   "note": "rectangular pupil; intensity closed form, dark lines, core size, contrast and cut-off"
  },
  {
   "property": "C108",
   "status": "proved",
   "theorems": [
    "C108_text",
    "C108_cardinal",
    "C108_pupils",
    "C108_magnification",
    "C108_airy",
    "C108_beam",
    "C108_rayleigh",
    "C108_poly"
   ],
   "note": "Lines before numbers are turned into digits. Beams with rotated axes raise in the code (C38_normal_refuted)."
  },
  {
   "property": "C109",
   "status": "proved",
   "theorems": [
    "C109_wavefront",
    "C109_pixels",
    "C109_paraxial",
    "C109_figures",
    "C109_spot",
    "C109_seidel"
   ],
   "note": "wave front error, image pixels, paraxial figures and third order coefficients of a rescaled system, composed with the trace theorem C20"
  },
  {
   "property": "C110",
   "status": "proved",
   "theorems": [
    "C110_symmetric",
    "C110_axial",
    "C110_mirrored"
   ],
   "note": "the wave front error function of C54 composed with the symmetry of the trace of C70"
  },
  {
   "property": "C111",
   "status": "proved",
   "theorems": [
    "C111_mirrored",
    "C111_transposed",
    "C111_opposite",
    "C111_even",
    "C111_focus",
    "C111_opposite_pixel"
   ],
   "note": "symmetries of the transform behind psf; together with C110 the image of a point in a meridional plane is even about it"
  },
  {
   "property": "C112",
   "status": "proved",
   "theorems": [
    "C112_symmetric",
    "C112_wavefront",
    "C112_mirrored",
    "C112_in_plane",
    "C112_even",
    "C112_built"
   ],
   "note": "Symmetry of traces and wave front errors under every isometry keeping the vertices and normals; systems folded in a plane; placements in the yz plane tilted about x."
  },
  {
   "property": "C113",
   "status": "proved",
   "theorems": [
    "C113_opposite",
    "C113_undistorted",
    "C113_exchanged"
   ],
   "note": "Exact trace of a rear half behind its reverse; uses retracing (C90) and the half turn about the axis (C70)."
  },
  {
   "property": "C114",
   "status": "proved",
   "theorems": [
    "C114_telescope",
    "C114_no_focus"
   ],
   "note": "Two groups with a common focal point; the report has no focal length exactly there."
  },
  {
   "property": "C115",
   "status": "proved",
   "theorems": [
    "C115_turned"
   ],
   "note": "Uses the inverse matrix of C22 and the block of the surfaces."
  },
  {
   "property": "C116",
   "status": "proved",
   "theorems": [
    "C116_depth",
    "C116_slope",
    "C116_measured"
   ],
   "note": "Any media, telescopes included."
  },
  {
   "property": "C117",
   "status": "proved",
   "theorems": [
    "C117_clipped",
    "C117_stopped_down"
   ],
   "note": "The converse of C15 and the monotonicity in the apertures."
  },
  {
   "property": "C118",
   "status": "proved",
   "theorems": [
    "C118_relay"
   ],
   "note": "Any media and any position of the intermediate image."
  }
 ]
}
