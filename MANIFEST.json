{
 "claims": [
  {
   "property": "C01",
   "status": "proved",
   "theorems": [
    "C01_normal_form"
   ],
   "note": "For every successful construction and after every later history of scale/normalize/subtract_min/phase_shift/filter calls. Key order is stated without coercion (C13/C14 cover coercion). Reals in place of floats."
  },
  {
   "property": "C02",
   "status": "partial",
   "theorems": [
    "C02_no_duplicates_refuted",
    "C02_no_duplicates_partial",
    "C02_usual_ranges"
   ],
   "note": "REFUTED as stated: two points at 2*pi are both kept. Exact condition proved (iff): every repeated direction was already given inside [0,2*pi)."
  },
  {
   "property": "C03",
   "status": "partial",
   "theorems": [
    "C03_faithful_refuted",
    "C03_faithful_partial"
   ],
   "note": "REFUTED for integer arrays in radians (angle 7 is stored as 0: the reduced angle is truncated into the integer array). Proved in full for float arrays and for degrees."
  },
  {
   "property": "C04",
   "status": "proved",
   "theorems": [
    "C04_degrees_radians",
    "C04_accessors"
   ],
   "note": "Construction (same result or same exception) and every accessor; deg2rad idealised as x*(pi/180)."
  },
  {
   "property": "C05",
   "status": "partial",
   "theorems": [
    "C05_units_refuted",
    "C05_units_partial"
   ],
   "note": "REFUTED: \"Degrees\" is rejected by the constructor and accepted by accessors and phase_shift_data. Exact acceptance sets proved."
  },
  {
   "property": "C06",
   "status": "proved",
   "theorems": [
    "C06_validation"
   ],
   "note": "Success iff well formed; the only exception is ValueError, also with normal_to_oblique."
  },
  {
   "property": "C07",
   "status": "proved",
   "theorems": [
    "C07_scale_history"
   ],
   "note": ""
  },
  {
   "property": "C08",
   "status": "proved",
   "theorems": [
    "C08_normalize"
   ],
   "note": "For every reachable container."
  },
  {
   "property": "C09",
   "status": "proved",
   "theorems": [
    "C09_extrema"
   ],
   "note": "For every reachable container with at least one key."
  },
  {
   "property": "C10",
   "status": "proved",
   "theorems": [
    "C10_subtract_min"
   ],
   "note": ""
  },
  {
   "property": "C11",
   "status": "partial",
   "theorems": [
    "C11_reconstruct_refuted",
    "C11_reconstruct_partial"
   ],
   "note": "REFUTED: scaling after subtract_min does not scale the recorded offset. Proved: scale is always the slope; scale and offset reconstruct when scalings precede subtractions."
  },
  {
   "property": "C12",
   "status": "proved",
   "theorems": [
    "C12_phase_action"
   ],
   "note": "List equality of the stored points, degrees included."
  },
  {
   "property": "C13",
   "status": "partial",
   "theorems": [
    "C13_accepts",
    "C13_keys",
    "C13_rotation_partial",
    "C13_rotation_refuted"
   ],
   "note": "Acceptance and key set proved. The rotation relation is REFUTED for multi-turn raw data (the copy loses repeated points its partner keeps) and proved under the C02 condition."
  },
  {
   "property": "C14",
   "status": "partial",
   "theorems": [
    "C14_key_order_refuted",
    "C14_key_order_partial"
   ],
   "note": "REFUTED: input order SS,PS gives SS,PS,PP,SP. Actual order characterised."
  },
  {
   "property": "C15",
   "status": "partial",
   "theorems": [
    "C15_data_copy_refuted",
    "C15_fdata_copy_refuted",
    "C15_fdata_copy_partial",
    "C15_form_copy",
    "C15_fform_copy_partial",
    "C15_fform_copy_refuted"
   ],
   "note": "REFUTED: DataContainer.copy always raises AttributeError; fFormContainer.copy raises ValueError when an array holds only numbers (the copy equals the original otherwise, and always for FormContainer); the copy of an fDataContainer holds its phase shift as a tuple and raises TypeError on a python-float phase shift. Proved: apart from the recorded phase, the Fourier copy follows every history."
  },
  {
   "property": "C16",
   "status": "proved",
   "theorems": [
    "C16_history",
    "C16_units",
    "C16_phase_shift",
    "C16_phase_group",
    "C16_normalize",
    "C16_extrema"
   ],
   "note": "For every reachable Fourier container; C16_history covers arbitrary histories, failed calls included."
  },
  {
   "property": "C17",
   "status": "partial",
   "theorems": [
    "C17_phase_sign_refuted",
    "C17_phase_sign_partial",
    "C17_curve"
   ],
   "note": "REFUTED: the sign conventions are opposite. Proved for equally spaced data and shifts by a multiple of the spacing, with -a. C17_curve: for any shift, the points of the shifted resampled data lie on the curve of the Fourier data shifted by -a."
  },
  {
   "property": "C18",
   "status": "proved",
   "theorems": [
    "C18_round_trip"
   ],
   "note": "For every interpolator that is exact at its nodes and accepts n points; n >= 2."
  },
  {
   "property": "C19",
   "status": "proved",
   "theorems": [
    "C19_aliasing",
    "C19_sharp",
    "C19_single_sample"
   ],
   "note": "Aliasing formula for n >= 2; with one sample dat_to_fdat raises IndexError."
  },
  {
   "property": "C30",
   "status": "partial",
   "theorems": [
    "C30_conditions",
    "C30_pointwise",
    "C30_inverse_partial",
    "C30_inverse_refuted"
   ],
   "note": "Success conditions and point-by-point result proved (including broadcasting of single points). The inverse law is REFUTED for containers with repeated directions (C02) and proved otherwise."
  },
  {
   "property": "C60",
   "status": "partial",
   "theorems": [
    "C60_none",
    "C60_multi_partial",
    "C60_multi_refuted",
    "C60_fourier",
    "C60_errors"
   ],
   "note": "REFUTED for index=multi: angles of the first polarization label every polarization. Exact condition proved."
  },
  {
   "property": "C61",
   "status": "partial",
   "theorems": [
    "C61_isolation_partial",
    "C61_write_partial",
    "C61_isolation_refuted",
    "C61_filter_refuted"
   ],
   "note": "REFUTED for get_values/get_items in radians. Refinement to value semantics proved for all programs that avoid them."
  },
  {
   "property": "C62",
   "status": "partial",
   "theorems": [
    "C62_easy_plot",
    "C62_too_many",
    "C62_polar_partial",
    "C62_polar_refuted"
   ],
   "note": "REFUTED for easy_polar_plot with one polarization (AttributeError)."
  },
  {
   "property": "C63",
   "status": "partial",
   "theorems": [
    "C63_transform_partial",
    "C63_scale_refuted"
   ],
   "note": "REFUTED for every non-negative scale other than 1 (AttributeError)."
  },
  {
   "property": "C31",
   "status": "proved",
   "theorems": [
    "C31_contraction",
    "C31_order",
    "C31_refused",
    "C31_groups",
    "C31_product"
   ],
   "note": "For entries in any commutative semiring, any shape and any list of pairs."
  },
  {
   "property": "C32",
   "status": "proved",
   "theorems": [
    "C32_components",
    "C32_identity",
    "C32_composition",
    "C32_linear",
    "C32_rank_zero"
   ],
   "note": "Rank 0 raises IndexError (stated as a theorem)."
  },
  {
   "property": "C33",
   "status": "proved",
   "theorems": [
    "C33_last_two",
    "C33_all",
    "C33_unchanged",
    "C33_no_solution"
   ],
   "note": "The solver is any function whose solutions solve its equations; it is a hypothesis of the theorem."
  },
  {
   "property": "C34",
   "status": "proved",
   "theorems": [
    "C34_complex",
    "C34_real",
    "C34_refused"
   ],
   "note": "Every set iteration order, every expression, every prefix and suffix. For the first two theorems names, prefixes and suffixes must not contain commas, colons or blanks; C34_refused: make_tensor_complex raises as soon as the text for either part of one parameter is two names separated by a comma."
  },
  {
   "property": "C35",
   "status": "proved",
   "theorems": [
    "C35_rotation",
    "C35_group",
    "C35_integer_refuted"
   ],
   "note": "The claim is about float axes; the third theorem shows what happens to integer arrays."
  },
  {
   "property": "C36",
   "status": "partial",
   "theorems": [
    "C36_two_vectors_partial",
    "C36_antiparallel_refuted"
   ],
   "note": "Proved for all pairs that are not opposite and every positive accuracy, rounding included. REFUTED for all opposite pairs: the result is minus the identity."
  },
  {
   "property": "C37",
   "status": "proved",
   "theorems": [
    "C37_union"
   ],
   "note": "Any type of elements with decidable equality."
  },
  {
   "property": "C20",
   "status": "partial",
   "theorems": [
    "C20_evaluation_partial",
    "C20_missing_symbol",
    "C20_evaluation_refuted"
   ],
   "note": "Proved for every Fourier formula of order 16 whose arrays hold sympy expressions; REFUTED for arrays that hold only numbers (AttributeError)."
  },
  {
   "property": "C21",
   "status": "partial",
   "theorems": [
    "C21_fform_to_fdat_refuted",
    "C21_form_to_fdat_refuted",
    "C21_merge_refuted",
    "C21_load_refuted"
   ],
   "note": "REFUTED for every order other than 16: each of the four operations raises for every non-empty container."
  },
  {
   "property": "C22",
   "status": "proved",
   "theorems": [
    "C22_table",
    "C22_entries"
   ],
   "note": "Integral in the sense of Coquelicot RInt; the table is the literal text of _lookup_table.py, generated by tools/gen_lookup.py."
  },
  {
   "property": "C23",
   "status": "partial",
   "theorems": [
    "C23_coefficients_partial",
    "C23_linear_refuted",
    "C23_atom_refuted",
    "C23_raises_refuted",
    "C23_reading",
    "C23_reading_fails",
    "C23_outcome",
    "C23_reading_total"
   ],
   "note": "The exact outcome is proved for every trigonometric polynomial (C23_reading*: the formula the code actually transforms, or KeyError). The true coefficients are proved for sums of products of degree <= 8 and single products or powers of degree 2..8. REFUTED: a*cos(phi) gets coefficient 0 at frequency 1; a summand that is not a product is replaced by 1; bare cos(phi) as a summand and degree > 8 raise KeyError."
  },
  {
   "property": "C24",
   "status": "proved",
   "theorems": [
    "C24_truncated",
    "C24_inverse",
    "C24_converse_refuted"
   ],
   "note": "The last theorem records that the opposite composition does not hold (not part of the claim)."
  },
  {
   "property": "C25",
   "status": "partial",
   "theorems": [
    "C25_high_order_refuted",
    "C25_orders_partial"
   ],
   "note": "REFUTED: IndexError for every M > 16 and every covered formula containing phi."
  },
  {
   "property": "C26",
   "status": "proved",
   "theorems": [
    "C26_commutes",
    "C26_add",
    "C26_same_sign"
   ],
   "note": "Coefficients must not contain phi; the shift must have a real value for the first theorem."
  },
  {
   "property": "C27",
   "status": "proved",
   "theorems": [
    "C27_sampling"
   ],
   "note": "Equality of the two containers; hypothesis: the dictionary gives real values to symbols declared real."
  },
  {
   "property": "C28",
   "status": "partial",
   "theorems": [
    "C28_accepts_partial",
    "C28_exact",
    "C28_constant_refuted",
    "C28_values_refuted"
   ],
   "note": "Exact condition proved (C28_exact). REFUTED: constant formulas raise ValueError, and the outcome can depend on the parameter values (a*cos(phi) with a = 0)."
  },
  {
   "property": "C29",
   "status": "partial",
   "theorems": [
    "C29_form",
    "C29_fdata",
    "C29_fform",
    "C29_data",
    "C29_mixed_partial",
    "C29_other_type",
    "C29_types_refuted"
   ],
   "note": "The union and last-wins law is proved for the four types (Fourier order 16, see C21; data with distinct directions, see C02). REFUTED for the error part: empty list, unsupported later container, empty container of another class. numpy.copy of an expression is identified with the expression."
  },
  {
   "property": "C59",
   "status": "partial",
   "theorems": [
    "C59_round_trip_partial",
    "C59_round_trip_refuted"
   ],
   "note": "Proved for order 16; REFUTED (ValueError on loading) for every other order."
  },
  {
   "property": "C38",
   "status": "proved",
   "theorems": [
    "C38_dipole",
    "C38_surface",
    "C38_names",
    "C38_orders",
    "C38_angles",
    "C38_symbolic"
   ],
   "note": "Groups given by generators over Z[sqrt 3]/2; their orders and the rotation angles are theorems. For all complex parameter values, and for the symbolic transform under every sound evaluator."
  },
  {
   "property": "C39",
   "status": "proved",
   "theorems": [
    "C39_dipole",
    "C39_surface",
    "C39_centrosymmetric"
   ],
   "note": "Complete and unique for all complex rank-3 tensors invariant under the generators."
  },
  {
   "property": "C40",
   "status": "partial",
   "theorems": [
    "C40_invariant",
    "C40_isotropic",
    "C40_names_partial",
    "C40_names_refuted"
   ],
   "note": "Invariance and completeness proved for every entry of the table. REFUTED for the documented name S_2, which is missing (KeyError)."
  },
  {
   "property": "C41",
   "status": "partial",
   "theorems": [
    "C41_same_axes_partial",
    "C41_same_axes_refuted"
   ],
   "note": "Proved for all shared names but two. REFUTED for C_3v and D_3: no orthogonal change of axes makes both tensors invariant."
  },
  {
   "property": "C42",
   "status": "proved",
   "theorems": [
    "C42_surface"
   ],
   "note": "Entry by entry, for every name including unknown ones."
  },
  {
   "property": "C43",
   "status": "proved",
   "theorems": [
    "C43_nonnegative",
    "C43_transverse"
   ],
   "note": "For every sound evaluator and every optional combination of tensors; theta may be any expression with a real value."
  },
  {
   "property": "C44",
   "status": "proved",
   "theorems": [
    "C44_formula",
    "C44_errors",
    "C44_analyser"
   ],
   "note": "Component-wise specification in SpecFormgen.v. Tensors of the documented shapes."
  },
  {
   "property": "C45",
   "status": "partial",
   "theorems": [
    "C45_just_dipole",
    "C45_dipole_quadrupole",
    "C45_angle",
    "C45_combined",
    "C45_just_dipole_refuted"
   ],
   "note": "Proved for the generators and for gen_P_dipole_quadrupole with make_form_from_P_and_Q. REFUTED for gen_P_just_dipole with make_form_from_P_and_Q: AttributeError for every tensor. formgen_dipole_quadrupole additionally refuses angles not known to be real (C45_angle)."
  },
  {
   "property": "C46",
   "status": "proved",
   "theorems": [
    "C46_periodic",
    "C46_axis",
    "C46_tables"
   ],
   "note": "Tensors and theta must not contain the symbol phi. C46_tables instantiates it with the tables of the package made real or complex."
  },
  {
   "property": "C47",
   "status": "proved",
   "theorems": [
    "C47_normal"
   ],
   "note": "Tensors and theta must not contain the symbol phi."
  },
  {
   "property": "C48",
   "status": "proved",
   "theorems": [
    "C48_degree",
    "C48_sharp"
   ],
   "note": "The second theorem shows that both bounds are reached."
  },
  {
   "property": "C49",
   "status": "proved",
   "theorems": [
    "C49_formula",
    "C49_exact",
    "C49_wraps"
   ],
   "note": "C49_formula gives every coefficient for all inputs, C49_exact the case of the claim, C49_wraps a case of wrapping."
  },
  {
   "property": "C50",
   "status": "proved",
   "theorems": [
    "C50_intensity",
    "C50_intensity_numeric",
    "C50_refuses"
   ],
   "note": "For both generators (symbolic and numeric angle), through the stored and reloaded file. The geometry is stated in SpecFformgen; C51_half_turn relates it to that of formgen. ndigits: C79."
  },
  {
   "property": "C51",
   "status": "partial",
   "theorems": [
    "C51_half_turn",
    "C51_turned_back",
    "C51_refuted"
   ],
   "note": "REFUTED as claimed: coefficient m differs by (-1)^m. Proved: the exact relation for all tensors, and equality after ff_phase_shift by pi."
  },
  {
   "property": "C64",
   "status": "partial",
   "theorems": [
    "C64_fails",
    "C64_small",
    "C64_refuted",
    "C50_intensity"
   ],
   "note": "REFUTED for every order other than 16; order 16 is C50."
  },
  {
   "property": "C52",
   "status": "proved",
   "theorems": [
    "C52_cost",
    "C52_cost_default",
    "C52_misfit"
   ],
   "note": "For every sound evaluation and every argument list without omissions, chunked or not; the misfit is stated in SpecFit."
  },
  {
   "property": "C53",
   "status": "partial",
   "theorems": [
    "C53_split",
    "C53_expression",
    "C53_cost",
    "C53_model",
    "C53_zero",
    "C53_zero_model",
    "C53_negative_refuted"
   ],
   "note": "Proved for positive sizes and 0 (ZeroDivisionError as soon as an entry is a sum). REFUTED for negative sizes, which are accepted: the model is then zero. C53_model assumes that sympy takes the real and imaginary parts of the coefficients, see C111."
  },
  {
   "property": "C54",
   "status": "partial",
   "theorems": [
    "C54_lower_partial",
    "C54_higher_partial",
    "C54_higher_refuted"
   ],
   "note": "REFUTED for data of higher order: C54_higher_partial says which shifted data the cost is computed with. Lower order raises IndexError."
  },
  {
   "property": "C55",
   "status": "proved",
   "theorems": [
    "C55_least_squares",
    "C55_dual_annealing",
    "C55_basinhopping",
    "C55_basinhopping_jac",
    "C55_refused",
    "C55_missing",
    "C55_numeric"
   ],
   "note": "The optimiser is an arbitrary function of its arguments. With and without bounds."
  },
  {
   "property": "C56",
   "status": "partial",
   "theorems": [
    "C56_options_partial",
    "C56_options_refuted"
   ],
   "note": "REFUTED when the options contain minimizer_kwargs; proved otherwise."
  },
  {
   "property": "C57",
   "status": "partial",
   "theorems": [
    "C57_reload_partial",
    "C57_reload_refuted"
   ],
   "note": "REFUTED for a key that continues another key with an underscore; proved otherwise, for every order of the listing and every chunk size."
  },
  {
   "property": "C58",
   "status": "partial",
   "theorems": [
    "C58_reload_partial",
    "C58_stale",
    "C58_reload_refuted"
   ],
   "note": "REFUTED after a save with more components; proved for histories without one. C58_stale describes the loaded list."
  },
  {
   "property": "C65",
   "status": "partial",
   "theorems": [
    "C65_gradient",
    "C65_exists",
    "C65_failure",
    "C65_chunked",
    "C65_complex_refuted"
   ],
   "note": "Proved: what is generated is the gradient. Existence proved for real parameters and evaluations that resolve conjugates, REFUTED for complex ones."
  },
  {
   "property": "C66",
   "status": "partial",
   "theorems": [
    "C66_reuse",
    "C66_order_refuted"
   ],
   "note": "REFUTED for a cost saved with another argument order. C66_reuse is about names the loader finds and has not opened before; see C127 and C128 for the others."
  },
  {
   "property": "C67",
   "status": "partial",
   "theorems": [
    "C67_chunked_partial",
    "C67_refused_partial",
    "C67_plain_partial",
    "C67_plain_refuted"
   ],
   "note": "REFUTED without chunking. Proved: no argument list leads to a wrong cost, and chunked generation refuses a list that misses a parameter on which the misfit depends."
  },
  {
   "property": "C68",
   "status": "partial",
   "theorems": [
    "C68_missing_cost_partial",
    "C68_missing_model_refuted"
   ],
   "note": "REFUTED for models."
  },
  {
   "property": "C69",
   "status": "partial",
   "theorems": [
    "C69_other_files",
    "C69_no_file",
    "C69_failure_partial",
    "C69_failure_refuted"
   ],
   "note": "REFUTED only for the empty formula."
  },
  {
   "property": "C70",
   "status": "proved",
   "theorems": [
    "C70_turned",
    "C70_phase_shift"
   ],
   "note": "Tensors, angle and matrix must not contain the symbol phi; the matrix may contain real symbols."
  },
  {
   "property": "C71",
   "status": "proved",
   "theorems": [
    "C71_scale",
    "C71_phase"
   ],
   "note": "Tensors and constant must not contain phi."
  },
  {
   "property": "C72",
   "status": "proved",
   "theorems": [
    "C72_mirror",
    "C72_tables"
   ],
   "note": "Polar electric tensors invariant, axial magnetic tensor changing sign under transform."
  },
  {
   "property": "C73",
   "status": "proved",
   "theorems": [
    "C73_inversion"
   ],
   "note": "Every entry of the dipole and surface tables, made real or complex."
  },
  {
   "property": "C74",
   "status": "proved",
   "theorems": [
    "C74_coefficients",
    "C74_two_routes",
    "C74_round_trip"
   ],
   "note": "Formulas covered by the lookup table; form_to_dat needs a formula that varies with phi (C28)."
  },
  {
   "property": "C75",
   "status": "proved",
   "theorems": [
    "C75_zero",
    "C75_same_data"
   ],
   "note": "Order 16, arrays of sympy expressions (C20, C21)."
  },
  {
   "property": "C76",
   "status": "proved",
   "theorems": [
    "C76_normal"
   ],
   "note": "Angles given as floats or in degrees (C03)."
  },
  {
   "property": "C77",
   "status": "proved",
   "theorems": [
    "C77_histories"
   ],
   "note": "Arrays of sympy expressions; arguments free of phi, shifts and replacements of real symbols real."
  },
  {
   "property": "C78",
   "status": "proved",
   "theorems": [
    "C78_fourier",
    "C78_form",
    "C78_faithful",
    "C78_unknown"
   ],
   "note": "A frame is modelled as the list of its rows."
  },
  {
   "property": "C79",
   "status": "proved",
   "theorems": [
    "C79_entries",
    "C79_bound",
    "C79_bound_axis",
    "C79_short",
    "C79_output_short",
    "C79_numbers",
    "C79_determined",
    "C79_symbols",
    "C79_intensity"
   ],
   "note": "expand is an arbitrary sound function; the bounds are for entries it turns into a sum of numbers times products (stated as a hypothesis). Exponents are not rounded in the model (sympy leaves integers as they are)."
  },
  {
   "property": "C80",
   "status": "partial",
   "theorems": [
    "C80_negative_refuted",
    "C80_bound_partial"
   ],
   "note": "REFUTED; the lower bound is proved."
  },
  {
   "property": "C81",
   "status": "proved",
   "theorems": [
    "C81_resampled",
    "C81_points",
    "C81_fit"
   ],
   "note": "The points are the resampled ones in general and the measured ones for equally spaced data. The constant is given explicitly."
  },
  {
   "property": "C82",
   "status": "proved",
   "theorems": [
    "C82_shift",
    "C82_cost",
    "C82_real_space"
   ],
   "note": "The last theorem relates it to phase_shift_data (opposite sign, C17)."
  },
  {
   "property": "C83",
   "status": "proved",
   "theorems": [
    "C83_scale",
    "C83_cost",
    "C83_ranking"
   ],
   "note": "Negative factors are refused by scale_fdata."
  },
  {
   "property": "C84",
   "status": "proved",
   "theorems": [
    "C84_merged",
    "C84_cost"
   ],
   "note": "Order 16, arrays of sympy expressions (C21)."
  },
  {
   "property": "C85",
   "status": "proved",
   "theorems": [
    "C85_symmetric"
   ],
   "note": "formgen on arbitrary tensors of shape 3^3, 3^3, 3^4."
  },
  {
   "property": "C86",
   "status": "proved",
   "theorems": [
    "C86_opposite"
   ],
   "note": ""
  },
  {
   "property": "C87",
   "status": "proved",
   "theorems": [
    "C87_phase",
    "C87_sign"
   ],
   "note": "Order 16. The hypothesis that the parser inverts the printer is met by Printer.show / Printer.read (read_show), used in C87_case."
  },
  {
   "property": "C88",
   "status": "proved",
   "theorems": [
    "C88_raw",
    "C88_raw_quadrupole",
    "C88_prepared"
   ],
   "note": ""
  },
  {
   "property": "C89",
   "status": "proved",
   "theorems": [
    "C89_scale",
    "C89_arithmetic",
    "C89_subtract_min"
   ],
   "note": "Interpolation is a parameter assumed linear (SpecLin); the spline kinds of scipy are linear in the values."
  },
  {
   "property": "C90",
   "status": "proved",
   "theorems": [
    "C90_filter",
    "C90_elementwise",
    "C90_positional"
   ],
   "note": ""
  },
  {
   "property": "C91",
   "status": "proved",
   "theorems": [
    "C91_minimum",
    "C91_perfect",
    "C91_generated"
   ],
   "note": "Exact real arithmetic."
  },
  {
   "property": "C92",
   "status": "proved",
   "theorems": [
    "C92_misfit",
    "C92_cost"
   ],
   "note": "Exact real arithmetic: in floats the order of summation matters."
  },
  {
   "property": "C93",
   "status": "partial",
   "theorems": [
    "C93_transform_refuted",
    "C93_transform_partial",
    "C93_values",
    "C93_sampling"
   ],
   "note": "REFUTED for Fourier data: a cos(phi) sin(phi) rewritten as a sin(2 phi)/2 is transformed to the constant a/2, and raises KeyError inside a sum. Proved for values and sampled data, and for Fourier data when the rewritten formula is still covered by the table method. The rewriting is any function that keeps values and adds no symbols."
  },
  {
   "property": "C94",
   "status": "proved",
   "theorems": [
    "C94_formgen",
    "C94_generated",
    "C94_generated_symbolic",
    "C94_tables",
    "C94_fit"
   ],
   "note": "sympy evaluation and expansion are any functions that keep values and add no symbols. C94_fit is about least_squares_fit; the other fits read the guess in the same way (C55)."
  },
  {
   "property": "C95",
   "status": "proved",
   "theorems": [
    "C95_symbolic",
    "C95_rotation"
   ],
   "note": "the components of the axis are real constants of the formulas; ndigits is not used by the code."
  },
  {
   "property": "C96",
   "status": "partial",
   "theorems": [
    "C96_refuted",
    "C96_small_negative",
    "C96_exact",
    "C96_turn",
    "C96_range_partial",
    "C96_turned_partial",
    "C96_turned_degrees_partial",
    "C96_degrees"
   ],
   "note": "REFUTED in double precision (Flocq, round to nearest even, no overflow): 15 degrees shifted by -10 and -5 degrees is stored at 2*np.pi. The bounds are proved for all histories."
  },
  {
   "property": "C97",
   "status": "partial",
   "theorems": [
    "C97_refuted",
    "C97_first_partial",
    "C97_apart",
    "C97_circle"
   ],
   "note": "REFUTED in double precision: 1 and 361 degrees are both stored. Separation and full circles are proved."
  },
  {
   "property": "C98",
   "status": "partial",
   "theorems": [
    "C98_refuted",
    "C98_maximum_partial",
    "C98_order",
    "C98_history_partial"
   ],
   "note": "REFUTED in double precision: 49 normalized to 1 gives 1 - 2^-53. Error bounds proved for all histories of scalings, away from numbers below 1e-300; overflow is not represented."
  },
  {
   "property": "C99",
   "status": "proved",
   "theorems": [
    "C99_subtract_min"
   ],
   "note": "Values are doubles (Flocq, nearest even); overflow is not represented."
  },
  {
   "property": "C100",
   "status": "partial",
   "theorems": [
    "C100_refuted",
    "C100_inverse_partial",
    "C100_counts"
   ],
   "note": "REFUTED in double precision: 1 + 2^53 - 2^53 is 0. Error bound proved, exact for counts."
  },
  {
   "property": "C101",
   "status": "partial",
   "theorems": [
    "C101_refuted",
    "C101_overflow",
    "C101_stored_partial",
    "C101_curve_partial"
   ],
   "note": "REFUTED: the coefficients are rounded to complex64. Bounds proved for every error of the double-precision sum."
  },
  {
   "property": "C102",
   "status": "proved",
   "theorems": [
    "C102_formgen",
    "C102_fformgen",
    "C102_fformgen_number"
   ],
   "note": "Substitutions that keep the reality declarations and leave phi alone; fformgen at order 16, angle of incidence symbolic or a number; the hypothesis that the parser inverts the printer is met by Printer (read_show)."
  },
  {
   "property": "C103",
   "status": "proved",
   "theorems": [
    "C103_reversed",
    "C103_normal"
   ],
   "note": ""
  },
  {
   "property": "C104",
   "status": "partial",
   "theorems": [
    "C104_dat_to_fdat",
    "C104_fdat_to_dat",
    "C104_form_to_fform",
    "C104_fform_to_form",
    "C104_fform_to_fdat",
    "C104_fform_to_dat",
    "C104_form_to_fdat",
    "C104_edits",
    "C104_form_to_dat_partial",
    "C104_form_to_dat_refuted"
   ],
   "note": "REFUTED for form_to_dat on a formula that does not depend on the azimuth; proved for all other conversions."
  },
  {
   "property": "C105",
   "status": "proved",
   "theorems": [
    "C105_csv",
    "C105_load",
    "C105_file",
    "C105_outcome",
    "C105_dark",
    "C105_dark_keys"
   ],
   "note": "A file is given by the rows csv.reader yields and float() by an arbitrary partial function (finite values). C105_dark assumes points in order and angles that agree up to the tolerance of np.isclose, and equal lengths of the two first files (the code compares those)."
  },
  {
   "property": "C106",
   "status": "partial",
   "theorems": [
    "C106_mean_refuted",
    "C106_cubic_refuted",
    "C106_seam_partial",
    "C106_polygon",
    "C106_interpolator"
   ],
   "note": "REFUTED for linear interpolation and for the default cubic kind (on four points a cubic spline is the cubic polynomial through them). C106_seam_partial gives the exact change for linear interpolation; C17 covers shifts by multiples of the spacing. C106_interpolator: linear interpolation meets the assumptions made about interpolators in C17-C19, C74 and C89."
  },
  {
   "property": "C107",
   "status": "partial",
   "theorems": [
    "C107_success",
    "C107_fails",
    "C107_other_folders",
    "C107_folder",
    "C107_keeps_refuted",
    "C107_half_refuted",
    "C107_reached"
   ],
   "note": "REFUTED for failing calls; C107_reached says exactly which files a failing call leaves. The model writes the files one after the other; the parent folder is taken to exist, and of a source that does not compile nothing is copied."
  },
  {
   "property": "C108",
   "status": "partial",
   "theorems": [
    "C108_pattern",
    "C108_reload_partial",
    "C108_polarizations",
    "C108_bracket_refuted",
    "C108_star_refuted",
    "C108_characters",
    "C108_brackets",
    "C108_own"
   ],
   "note": "REFUTED for keys with *, ? or [. fnmatch is modelled in full for one path component; keys with a slash are not modelled."
  },
  {
   "property": "C109",
   "status": "proved",
   "theorems": [
    "C109_real",
    "C109_transform",
    "C109_history",
    "C109_samples",
    "C109_evaluated",
    "C109_generated",
    "C109_formula",
    "C109_cost"
   ],
   "note": "Formulas as in C20 (M = 16) and C23 (lookup-table terms, M <= 16)."
  },
  {
   "property": "C110",
   "status": "proved",
   "theorems": [
    "C110_intensities",
    "C110_data",
    "C110_history",
    "C110_largest",
    "C110_normalize",
    "C110_generated",
    "C110_negative"
   ],
   "note": "C110_negative shows that the sign condition is needed."
  },
  {
   "property": "C111",
   "status": "partial",
   "theorems": [
    "C111_exact",
    "C111_real",
    "C111_undeclared_refuted"
   ],
   "note": "REFUTED for parameters not declared real."
  },
  {
   "property": "C112",
   "status": "proved",
   "theorems": [
    "C112_fourier_data",
    "C112_fourier_formula",
    "C112_formula"
   ],
   "note": "An entry sympify refuses counts as malformed; an array is given by its dtype class, number of axes and entries."
  },
  {
   "property": "C113",
   "status": "proved",
   "theorems": [
    "C113_dipole",
    "C113_quadrupole",
    "C113_isotropic",
    "C113_setting"
   ],
   "note": "Follows from invariance of the more symmetric entry (C38, C40) and completeness of the less symmetric one (C39, C40)."
  },
  {
   "property": "C114",
   "status": "proved",
   "theorems": [
    "C114_exchange",
    "C114_full",
    "C114_particularize"
   ],
   "note": "particularize is modelled with sympy.solve abstracted to a sound solver, as in C33."
  },
  {
   "property": "C115",
   "status": "partial",
   "theorems": [
    "C115_refuted",
    "C115_noise_partial",
    "C115_misfit_partial"
   ],
   "note": "REFUTED for unequally spaced angles (the amplification is unbounded). Proved for equally spaced angles and any interpolation exact at its nodes."
  },
  {
   "property": "C116",
   "status": "proved",
   "theorems": [
    "C116_data",
    "C116_any_order",
    "C116_formula",
    "C116_misfit"
   ],
   "note": "Nothing is assumed of the interpolation, of sympy or of the formula."
  },
  {
   "property": "C117",
   "status": "proved",
   "theorems": [
    "C117_complex",
    "C117_real"
   ],
   "note": "Through the complete chain: tables, make_tensor_real/complex, fformgen, load, gen_cost_func. The optimizers themselves are not modelled."
  },
  {
   "property": "C118",
   "status": "proved",
   "theorems": [
    "C118_cost",
    "C118_orientation"
   ],
   "note": "Through transform, fformgen, load, phase_shift_fdata and gen_cost_func."
  },
  {
   "property": "C119",
   "status": "proved",
   "theorems": [
    "C119_orders",
    "C119_cost"
   ],
   "note": "The bound 8 is that of C48. The second theorem covers the crystals of the tables, made real or complex."
  },
  {
   "property": "C120",
   "status": "proved",
   "theorems": [
    "C120_fixed",
    "C120_constrained"
   ],
   "note": "The second theorem is for formulas whose parameters are declared real, which is what fits are made of; the substitutions keep what was declared (real for real)."
  },
  {
   "property": "C121",
   "status": "proved",
   "theorems": [
    "C121_scale"
   ],
   "note": "Negative scales are excluded: intensities are not negative."
  },
  {
   "property": "C122",
   "status": "proved",
   "theorems": [
    "C122_frame",
    "C122_last",
    "C122_angles"
   ],
   "note": "The directory is a dictionary from file names to arrays."
  },
  {
   "property": "C123",
   "status": "proved",
   "theorems": [
    "C123_phase",
    "C123_start",
    "C123_filter",
    "C123_fourier",
    "C123_wrapped"
   ],
   "note": "An unknown unit raises and changes nothing (C05, C16); it contributes 0 to the sum."
  },
  {
   "property": "C124",
   "status": "proved",
   "theorems": [
    "C124_least_squares",
    "C124_basinhopping"
   ],
   "note": "For fits that would otherwise run: guess and bounds complete, cost function generated."
  },
  {
   "property": "C125",
   "status": "proved",
   "theorems": [
    "C125_spelling",
    "C125_only"
   ],
   "note": "Different keys of one input that spell the same combination overwrite each other; C125_spelling covers this too, since it compares inputs position by position."
  },
  {
   "property": "C126",
   "status": "proved",
   "theorems": [
    "C126_file",
    "C126_file_symb",
    "C126_cost",
    "C126_best"
   ],
   "note": "The bound grows with the parameters, as the error of rounded coefficients must."
  },
  {
   "property": "C127",
   "status": "partial",
   "theorems": [
    "C127_first_partial",
    "C127_first_call_partial",
    "C127_pinned",
    "C127_stale_refuted"
   ],
   "note": "REFUTED for a name loaded before in the process. Rests on the documented behaviour of dlopen modelled in LibModel."
  },
  {
   "property": "C128",
   "status": "partial",
   "theorems": [
    "C128_bare",
    "C128_bare_refuted",
    "C128_next_partial"
   ],
   "note": "REFUTED for a str without a slash. Rests on the documented behaviour of dlopen modelled in LibModel."
  },
  {
   "property": "C129",
   "status": "proved",
   "theorems": [
    "C129_even",
    "C129_cost"
   ],
   "note": "The angle a is that of the reflection matrix in the frame of the tensors."
  },
  {
   "property": "C130",
   "status": "partial",
   "theorems": [
    "C130_first_partial",
    "C130_next_partial",
    "C130_pinned",
    "C130_stale_refuted"
   ],
   "note": "REFUTED: loading after a second save in the same process gives the first model. Partial: it holds for a folder not loaded from before, and in the next process; C130_pinned says what comes back otherwise."
  },
  {
   "property": "C131",
   "status": "partial",
   "theorems": [
    "C131_extremes",
    "C131_ignored_partial",
    "C131_wiped",
    "C131_zero",
    "C131_subtract",
    "C131_scale",
    "C131_ignored_refuted"
   ],
   "note": "REFUTED when a polarization begins with nan. C131_extremes says for every container what is reported; Flocq binary64 arithmetic, one nan, angles real."
  },
  {
   "property": "C132",
   "status": "proved",
   "theorems": [
    "C132_normal",
    "C132_cost"
   ],
   "note": "Exact arithmetic. That the interpolated Fourier data of coerced raw data are exact copies is not claimed (numerical integration); copies is a condition on the Fourier data."
  },
  {
   "property": "C133",
   "status": "partial",
   "theorems": [
    "C133_contiguous_partial",
    "C133_converted",
    "C133_model",
    "C133_memory",
    "C133_finite",
    "C133_views_refuted",
    "C133_integers_refuted",
    "C133_short_refuted"
   ],
   "note": "REFUTED for cost functions called with views, integers or short arrays. C133_memory says what is computed in every case. Words are Flocq bit patterns; one axis; integers below 2^53 where they are converted."
  },
  {
   "property": "C134",
   "status": "partial",
   "theorems": [
    "C134_whole_partial",
    "C134_exact",
    "C134_parts_refuted"
   ],
   "note": "REFUTED: after a failed compilation nothing can be loaded under the name. C134_whole_partial asks that sympy does not bring in real and imaginary parts that were not there."
  },
  {
   "property": "C135",
   "status": "partial",
   "theorems": [
    "C135_saved_partial",
    "C135_worker_partial",
    "C135_pinned",
    "C135_here",
    "C135_mixed_refuted",
    "C135_here_refuted"
   ],
   "note": "REFUTED when another model is saved in the folder, and for models in the working directory. The loader is modelled as in C127 and C130; the working directory does not change."
  },
  {
   "property": "C136",
   "status": "proved",
   "theorems": [
    "C136_cost"
   ],
   "note": "Cost functions over real numbers; the fits themselves (scipy) are not modelled, only what is minimised. Factor 0 keeps the cost formula but not the correspondence of minima."
  },
  {
   "property": "C137",
   "status": "proved",
   "theorems": [
    "C137_cubic",
    "C137_linear",
    "C137_nodes",
    "C137_others"
   ],
   "note": "IEEE 754 doubles and single precision of Flocq, all nans alike. The interpolators are those of scipy interp1d, read from its documentation and source: kind linear in full, the spline kinds only in what they do with nan."
  },
  {
   "property": "C138",
   "status": "proved",
   "theorems": [
    "C138_least_squares",
    "C138_dual_annealing",
    "C138_basinhopping",
    "C138_bounded",
    "C138_jac"
   ],
   "note": "Exact real arithmetic. Not that the same parameters come back: other values may simulate the same data (C87). Result dictionaries with values of dictionaries for simulation, i.e. rational numbers, which all floats are."
  },
  {
   "property": "C139",
   "status": "proved",
   "theorems": [
    "C139_least_squares",
    "C139_dual_annealing",
    "C139_basinhopping",
    "C139_bounded",
    "C139_jac",
    "C139_noise"
   ],
   "note": "Exact real arithmetic. About the curves, not the parameters: different parameters may give nearly the same curve."
  },
  {
   "property": "C140",
   "status": "proved",
   "theorems": [
    "C140_fourier",
    "C140_data"
   ],
   "note": "Exact real arithmetic. The data are resampled exactly only for multiples of the spacing (C17)."
  },
  {
   "property": "C141",
   "status": "proved",
   "theorems": [
    "C141_step",
    "C141_series",
    "C141_reuse"
   ],
   "note": "Exact real arithmetic. The optimisers are arguments of which only is assumed that the point returned is no worse than the start. Fits that return. In C141_series each fit builds its own cost function, in C141_reuse all but the first load the one saved by the first, under a name no gradient is saved under."
  },
  {
   "property": "C142",
   "status": "proved",
   "theorems": [
    "C142_fixed",
    "C142_complete",
    "C142_tied",
    "C142_crystal_complex",
    "C142_crystal_real"
   ],
   "note": "Exact real arithmetic; the numbers put in are real. The optimisers are arguments, as in C141. If the substitution makes another parameter disappear (a*b with a = 0), the second fit needs a guess for it, otherwise it raises KeyError: the condition of C142_complete."
  },
  {
   "property": "C143",
   "status": "proved",
   "theorems": [
    "C143_cost",
    "C143_fit"
   ],
   "note": "Exact real arithmetic. Order 16, arrays of sympy expressions (C20, C21). Values that are rational numbers, as all floats are."
  },
  {
   "property": "C144",
   "status": "proved",
   "theorems": [
    "C144_complex",
    "C144_no_more",
    "C144_choice",
    "C144_real",
    "C144_clash_refuted",
    "C144_same_refuted"
   ],
   "note": "The claim is about names that do not clash; the last two theorems show what is lost when they do (no error is raised)."
  },
  {
   "property": "C145",
   "status": "proved",
   "theorems": [
    "C145_band",
    "C145_sharp",
    "C145_formula"
   ],
   "note": "Exact real arithmetic. Improves the bounds of C18 (2M) and C74 (32)."
  },
  {
   "property": "C146",
   "status": "proved",
   "theorems": [
    "C146_same",
    "C146_cost",
    "C146_fit"
   ],
   "note": "Exact real arithmetic; the interpolator is exact at the points, the optimiser finds the minimum (within the bounds, which hold the truth). Cases: C146_case, C146_case_crystal."
  },
  {
   "property": "C147",
   "status": "proved",
   "theorems": [
    "C147_sign",
    "C147_fit",
    "C147_zincblende",
    "C147_normal"
   ],
   "note": "Exact real arithmetic, as in C146. Case: C147_case."
  },
  {
   "property": "C148",
   "status": "proved",
   "theorems": [
    "C148_patterns",
    "C148_parameter",
    "C148_zincblende"
   ],
   "note": "Exact real arithmetic, optimisers as in C139. For zincblende the bound is written out for the least squares fit. Case: C148_case."
  },
  {
   "property": "C149",
   "status": "proved",
   "theorems": [
    "C149_misfit",
    "C149_cost",
    "C149_dark",
    "C149_formgen"
   ],
   "note": "Exact real arithmetic. Case: the parameter zzz of class C_4v (C149_case)."
  },
  {
   "property": "C150",
   "status": "proved",
   "theorems": [
    "C150_same",
    "C150_cost",
    "C150_fit"
   ],
   "note": "Exact real arithmetic; formulas `covered` as in C23; the interpolation is exact at its nodes; optimisers are assumed to find the minimum. Case: a cos(phi) sin(phi) and 25 points, where the cost of every other value of a is positive (C150_case)."
  }
 ]
}
