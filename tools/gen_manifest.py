#!/usr/bin/env python3
"""Write MANIFEST.json. One entry per property; statuses are edited here."""
import json, os

P, H, N = 'proved', 'partial', 'not_applicable'
claims = []


def c(prop, status, theorems, note):
    claims.append(dict(property=prop, status=status, theorems=theorems.split(), note=note))


c('C01', P, 'C01_normal_form',
  'For every successful construction and after every later history of scale/normalize/subtract_min/phase_shift/filter calls. '
  'Key order is stated without coercion (C13/C14 cover coercion). Reals in place of floats.')
c('C02', H, 'C02_no_duplicates_refuted C02_no_duplicates_partial C02_usual_ranges',
  'REFUTED as stated: two points at 2*pi are both kept. Exact condition proved (iff): every repeated direction was already given inside [0,2*pi).')
c('C03', H, 'C03_faithful_refuted C03_faithful_partial',
  'REFUTED for integer arrays in radians (angle 7 is stored as 0: the reduced angle is truncated into the integer array). Proved in full for float arrays and for degrees.')
c('C04', P, 'C04_degrees_radians C04_accessors', 'Construction (same result or same exception) and every accessor; deg2rad idealised as x*(pi/180).')
c('C05', H, 'C05_units_refuted C05_units_partial',
  'REFUTED: "Degrees" is rejected by the constructor and accepted by accessors and phase_shift_data. Exact acceptance sets proved.')
c('C06', P, 'C06_validation', 'Success iff well formed; the only exception is ValueError, also with normal_to_oblique.')
c('C07', P, 'C07_scale_history', '')
c('C08', P, 'C08_normalize', 'For every reachable container.')
c('C09', P, 'C09_extrema', 'For every reachable container with at least one key.')
c('C10', P, 'C10_subtract_min', '')
c('C11', H, 'C11_reconstruct_refuted C11_reconstruct_partial',
  'REFUTED: scaling after subtract_min does not scale the recorded offset. Proved: scale is always the slope; scale and offset reconstruct when scalings precede subtractions.')
c('C12', P, 'C12_phase_action', 'List equality of the stored points, degrees included.')
c('C13', H, 'C13_accepts C13_keys C13_rotation_partial C13_rotation_refuted',
  'Acceptance and key set proved. The rotation relation is REFUTED for multi-turn raw data (the copy loses repeated points its partner keeps) and proved under the C02 condition.')
c('C14', H, 'C14_key_order_refuted C14_key_order_partial', 'REFUTED: input order SS,PS gives SS,PS,PP,SP. Actual order characterised.')
c('C15', H, 'C15_data_copy_refuted C15_fdata_copy_refuted C15_fdata_copy_partial C15_form_copy C15_fform_copy_partial C15_fform_copy_refuted',
  'REFUTED: DataContainer.copy always raises AttributeError; fFormContainer.copy raises ValueError when an array holds only numbers (the copy equals the original otherwise, and always for FormContainer); the copy of an fDataContainer holds its phase shift as a tuple and raises TypeError on a python-float phase shift. Proved: apart from the recorded phase, the Fourier copy follows every history.')
c('C16', P, 'C16_history C16_units C16_phase_shift C16_phase_group C16_normalize C16_extrema', 'For every reachable Fourier container; C16_history covers arbitrary histories, failed calls included.')
c('C17', H, 'C17_phase_sign_refuted C17_phase_sign_partial C17_curve', 'REFUTED: the sign conventions are opposite. Proved for equally spaced data and shifts by a multiple of the spacing, with -a. C17_curve: for any shift, the points of the shifted resampled data lie on the curve of the Fourier data shifted by -a.')
c('C18', P, 'C18_round_trip', 'For every interpolator that is exact at its nodes and accepts n points; n >= 2.')
c('C19', P, 'C19_aliasing C19_sharp C19_single_sample', 'Aliasing formula for n >= 2; with one sample dat_to_fdat raises IndexError.')
c('C30', H, 'C30_conditions C30_pointwise C30_inverse_partial C30_inverse_refuted',
  'Success conditions and point-by-point result proved (including broadcasting of single points). The inverse law is REFUTED for containers with repeated directions (C02) and proved otherwise.')
c('C60', H, 'C60_none C60_multi_partial C60_multi_refuted C60_fourier C60_errors', 'REFUTED for index=multi: angles of the first polarization label every polarization. Exact condition proved.')
c('C61', H, 'C61_isolation_partial C61_write_partial C61_isolation_refuted C61_filter_refuted',
  'REFUTED for get_values/get_items in radians. Refinement to value semantics proved for all programs that avoid them.')
c('C62', H, 'C62_easy_plot C62_too_many C62_polar_partial C62_polar_refuted', 'REFUTED for easy_polar_plot with one polarization (AttributeError).')
c('C63', H, 'C63_transform_partial C63_scale_refuted', 'REFUTED for every non-negative scale other than 1 (AttributeError).')

c('C31', P, 'C31_contraction C31_order C31_refused C31_groups C31_product', 'For entries in any commutative semiring, any shape and any list of pairs.')
c('C32', P, 'C32_components C32_identity C32_composition C32_linear C32_rank_zero', 'Rank 0 raises IndexError (stated as a theorem).')
c('C33', P, 'C33_last_two C33_all C33_unchanged C33_no_solution', 'The solver is any function whose solutions solve its equations; it is a hypothesis of the theorem.')
c('C34', P, 'C34_complex C34_real C34_refused', 'Every set iteration order, every expression, every prefix and suffix. For the first two theorems names, prefixes and suffixes must not contain commas, colons or blanks; C34_refused: make_tensor_complex raises as soon as the text for either part of one parameter is two names separated by a comma.')
c('C35', P, 'C35_rotation C35_group C35_integer_refuted', 'The claim is about float axes; the third theorem shows what happens to integer arrays.')
c('C36', H, 'C36_two_vectors_partial C36_antiparallel_refuted', 'Proved for all pairs that are not opposite and every positive accuracy, rounding included. REFUTED for all opposite pairs: the result is minus the identity.')
c('C37', P, 'C37_union', 'Any type of elements with decidable equality.')

c('C20', H, 'C20_evaluation_partial C20_missing_symbol C20_evaluation_refuted', 'Proved for every Fourier formula of order 16 whose arrays hold sympy expressions; REFUTED for arrays that hold only numbers (AttributeError).')
c('C21', H, 'C21_fform_to_fdat_refuted C21_form_to_fdat_refuted C21_merge_refuted C21_load_refuted', 'REFUTED for every order other than 16: each of the four operations raises for every non-empty container.')
c('C22', P, 'C22_table C22_entries', 'Integral in the sense of Coquelicot RInt; the table is the literal text of _lookup_table.py, generated by tools/gen_lookup.py.')
c('C23', H, 'C23_coefficients_partial C23_linear_refuted C23_atom_refuted C23_raises_refuted C23_reading C23_reading_fails C23_outcome C23_reading_total', 'The exact outcome is proved for every trigonometric polynomial (C23_reading*: the formula the code actually transforms, or KeyError). The true coefficients are proved for sums of products of degree <= 8 and single products or powers of degree 2..8. REFUTED: a*cos(phi) gets coefficient 0 at frequency 1; a summand that is not a product is replaced by 1; bare cos(phi) as a summand and degree > 8 raise KeyError.')
c('C24', P, 'C24_truncated C24_inverse C24_converse_refuted', 'The last theorem records that the opposite composition does not hold (not part of the claim).')
c('C25', H, 'C25_high_order_refuted C25_orders_partial', 'REFUTED: IndexError for every M > 16 and every covered formula containing phi.')
c('C26', P, 'C26_commutes C26_add C26_same_sign', 'Coefficients must not contain phi; the shift must have a real value for the first theorem.')
c('C27', P, 'C27_sampling', 'Equality of the two containers; hypothesis: the dictionary gives real values to symbols declared real.')
c('C28', H, 'C28_accepts_partial C28_exact C28_constant_refuted C28_values_refuted', 'Exact condition proved (C28_exact). REFUTED: constant formulas raise ValueError, and the outcome can depend on the parameter values (a*cos(phi) with a = 0).')
c('C29', H, 'C29_form C29_fdata C29_fform C29_data C29_mixed_partial C29_other_type C29_types_refuted', 'The union and last-wins law is proved for the four types (Fourier order 16, see C21; data with distinct directions, see C02). REFUTED for the error part: empty list, unsupported later container, empty container of another class. numpy.copy of an expression is identified with the expression.')
c('C59', H, 'C59_round_trip_partial C59_round_trip_refuted', 'Proved for order 16; REFUTED (ValueError on loading) for every other order.')

c('C38', P, 'C38_dipole C38_surface C38_names C38_orders C38_angles C38_symbolic', 'Groups given by generators over Z[sqrt 3]/2; their orders and the rotation angles are theorems. For all complex parameter values, and for the symbolic transform under every sound evaluator.')
c('C39', P, 'C39_dipole C39_surface C39_centrosymmetric', 'Complete and unique for all complex rank-3 tensors invariant under the generators.')
c('C40', H, 'C40_invariant C40_isotropic C40_names_partial C40_names_refuted', 'Invariance and completeness proved for every entry of the table. REFUTED for the documented name S_2, which is missing (KeyError).')
c('C41', H, 'C41_same_axes_partial C41_same_axes_refuted', 'Proved for all shared names but two. REFUTED for C_3v and D_3: no orthogonal change of axes makes both tensors invariant.')
c('C42', P, 'C42_surface', 'Entry by entry, for every name including unknown ones.')

c('C43', P, 'C43_nonnegative C43_transverse', 'For every sound evaluator and every optional combination of tensors; theta may be any expression with a real value.')
c('C44', P, 'C44_formula C44_errors C44_analyser', 'Component-wise specification in SpecFormgen.v. Tensors of the documented shapes.')
c('C45', H, 'C45_just_dipole C45_dipole_quadrupole C45_angle C45_combined C45_just_dipole_refuted', 'Proved for the generators and for gen_P_dipole_quadrupole with make_form_from_P_and_Q. REFUTED for gen_P_just_dipole with make_form_from_P_and_Q: AttributeError for every tensor. formgen_dipole_quadrupole additionally refuses angles not known to be real (C45_angle).')
c('C46', P, 'C46_periodic C46_axis C46_tables', 'Tensors and theta must not contain the symbol phi. C46_tables instantiates it with the tables of the package made real or complex.')
c('C47', P, 'C47_normal', 'Tensors and theta must not contain the symbol phi.')
c('C48', P, 'C48_degree C48_sharp', 'The second theorem shows that both bounds are reached.')
c('C49', P, 'C49_formula C49_exact C49_wraps', 'C49_formula gives every coefficient for all inputs, C49_exact the case of the claim, C49_wraps a case of wrapping.')
c('C50', P, 'C50_intensity C50_intensity_numeric C50_refuses', 'For both generators (symbolic and numeric angle), through the stored and reloaded file. The geometry is stated in SpecFformgen; C51_half_turn relates it to that of formgen. ndigits: C79.')
c('C51', H, 'C51_half_turn C51_turned_back C51_refuted', 'REFUTED as claimed: coefficient m differs by (-1)^m. Proved: the exact relation for all tensors, and equality after ff_phase_shift by pi.')
c('C64', H, 'C64_fails C64_small C64_refuted C50_intensity', 'REFUTED for every order other than 16; order 16 is C50.')

c('C52', P, 'C52_cost C52_cost_default C52_misfit', 'For every sound evaluation and every argument list without omissions, chunked or not; the misfit is stated in SpecFit.')
c('C53', H, 'C53_split C53_expression C53_cost C53_model C53_zero C53_zero_model C53_negative_refuted', 'Proved for positive sizes and 0 (ZeroDivisionError as soon as an entry is a sum). REFUTED for negative sizes, which are accepted: the model is then zero. C53_model assumes that sympy takes the real and imaginary parts of the coefficients, see C111.')
c('C54', H, 'C54_lower_partial C54_higher_partial C54_higher_refuted', 'REFUTED for data of higher order: C54_higher_partial says which shifted data the cost is computed with. Lower order raises IndexError.')
c('C55', P, 'C55_least_squares C55_dual_annealing C55_basinhopping C55_basinhopping_jac C55_refused C55_missing C55_numeric', 'The optimiser is an arbitrary function of its arguments. With and without bounds.')
c('C56', H, 'C56_options_partial C56_options_refuted', 'REFUTED when the options contain minimizer_kwargs; proved otherwise.')
c('C57', H, 'C57_reload_partial C57_reload_refuted', 'REFUTED for a key that continues another key with an underscore; proved otherwise, for every order of the listing and every chunk size.')
c('C58', H, 'C58_reload_partial C58_stale C58_reload_refuted', 'REFUTED after a save with more components; proved for histories without one. C58_stale describes the loaded list.')
c('C65', H, 'C65_gradient C65_exists C65_failure C65_chunked C65_complex_refuted', 'Proved: what is generated is the gradient. Existence proved for real parameters and evaluations that resolve conjugates, REFUTED for complex ones.')
c('C66', H, 'C66_reuse C66_order_refuted', 'REFUTED for a cost saved with another argument order. C66_reuse is about names the loader finds and has not opened before; see C127 and C128 for the others.')
c('C67', H, 'C67_chunked_partial C67_refused_partial C67_plain_partial C67_plain_refuted', 'REFUTED without chunking. Proved: no argument list leads to a wrong cost, and chunked generation refuses a list that misses a parameter on which the misfit depends.')
c('C68', H, 'C68_missing_cost_partial C68_missing_model_refuted', 'REFUTED for models.')
c('C69', H, 'C69_other_files C69_no_file C69_failure_partial C69_failure_refuted', 'REFUTED only for the empty formula.')

c('C70', P, 'C70_turned C70_phase_shift', 'Tensors, angle and matrix must not contain the symbol phi; the matrix may contain real symbols.')
c('C71', P, 'C71_scale C71_phase', 'Tensors and constant must not contain phi.')
c('C72', P, 'C72_mirror C72_tables', 'Polar electric tensors invariant, axial magnetic tensor changing sign under transform.')
c('C73', P, 'C73_inversion', 'Every entry of the dipole and surface tables, made real or complex.')
c('C74', P, 'C74_coefficients C74_two_routes C74_round_trip', 'Formulas covered by the lookup table; form_to_dat needs a formula that varies with phi (C28).')
c('C75', P, 'C75_zero C75_same_data', 'Order 16, arrays of sympy expressions (C20, C21).')
c('C76', P, 'C76_normal', 'Angles given as floats or in degrees (C03).')
c('C77', P, 'C77_histories', 'Arrays of sympy expressions; arguments free of phi, shifts and replacements of real symbols real.')

c('C78', P, 'C78_fourier C78_form C78_faithful C78_unknown', 'A frame is modelled as the list of its rows.')
c('C79', P, 'C79_entries C79_bound C79_bound_axis C79_short C79_output_short C79_numbers C79_determined C79_symbols C79_intensity', 'expand is an arbitrary sound function; the bounds are for entries it turns into a sum of numbers times products (stated as a hypothesis). Exponents are not rounded in the model (sympy leaves integers as they are).')
c('C80', H, 'C80_negative_refuted C80_bound_partial', 'REFUTED; the lower bound is proved.')

c('C81', P, 'C81_resampled C81_points C81_fit', 'The points are the resampled ones in general and the measured ones for equally spaced data. The constant is given explicitly.')
c('C82', P, 'C82_shift C82_cost C82_real_space', 'The last theorem relates it to phase_shift_data (opposite sign, C17).')
c('C83', P, 'C83_scale C83_cost C83_ranking', 'Negative factors are refused by scale_fdata.')
c('C84', P, 'C84_merged C84_cost', 'Order 16, arrays of sympy expressions (C21).')

c('C85', P, 'C85_symmetric', 'formgen on arbitrary tensors of shape 3^3, 3^3, 3^4.')
c('C86', P, 'C86_opposite', '')
c('C87', P, 'C87_phase C87_sign', 'Order 16. The hypothesis that the parser inverts the printer is met by Printer.show / Printer.read (read_show), used in C87_case.')
c('C88', P, 'C88_raw C88_raw_quadrupole C88_prepared', '')

c('C89', P, 'C89_scale C89_arithmetic C89_subtract_min', 'Interpolation is a parameter assumed linear (SpecLin); the spline kinds of scipy are linear in the values.')
c('C90', P, 'C90_filter C90_elementwise C90_positional', '')
c('C91', P, 'C91_minimum C91_perfect C91_generated', 'Exact real arithmetic.')
c('C92', P, 'C92_misfit C92_cost', 'Exact real arithmetic: in floats the order of summation matters.')
c('C93', H, 'C93_transform_refuted C93_transform_partial C93_values C93_sampling', 'REFUTED for Fourier data: a cos(phi) sin(phi) rewritten as a sin(2 phi)/2 is transformed to the constant a/2, and raises KeyError inside a sum. Proved for values and sampled data, and for Fourier data when the rewritten formula is still covered by the table method. The rewriting is any function that keeps values and adds no symbols.')

c('C94', P, 'C94_formgen C94_generated C94_generated_symbolic C94_tables C94_fit', 'sympy evaluation and expansion are any functions that keep values and add no symbols. C94_fit is about least_squares_fit; the other fits read the guess in the same way (C55).')
c('C95', P, 'C95_symbolic C95_rotation', 'the components of the axis are real constants of the formulas; ndigits is not used by the code.')

c('C96', H, 'C96_refuted C96_small_negative C96_exact C96_turn C96_range_partial C96_turned_partial C96_turned_degrees_partial C96_degrees', 'REFUTED in double precision (Flocq, round to nearest even, no overflow): 15 degrees shifted by -10 and -5 degrees is stored at 2*np.pi. The bounds are proved for all histories.')
c('C97', H, 'C97_refuted C97_first_partial C97_apart C97_circle', 'REFUTED in double precision: 1 and 361 degrees are both stored. Separation and full circles are proved.')

c('C98', H, 'C98_refuted C98_maximum_partial C98_order C98_history_partial', 'REFUTED in double precision: 49 normalized to 1 gives 1 - 2^-53. Error bounds proved for all histories of scalings, away from numbers below 1e-300; overflow is not represented.')
c('C99', P, 'C99_subtract_min', 'Values are doubles (Flocq, nearest even); overflow is not represented.')
c('C100', H, 'C100_refuted C100_inverse_partial C100_counts', 'REFUTED in double precision: 1 + 2^53 - 2^53 is 0. Error bound proved, exact for counts.')
c('C101', H, 'C101_refuted C101_overflow C101_stored_partial C101_curve_partial', 'REFUTED: the coefficients are rounded to complex64. Bounds proved for every error of the double-precision sum.')
c('C102', P, 'C102_formgen C102_fformgen C102_fformgen_number', 'Substitutions that keep the reality declarations and leave phi alone; fformgen at order 16, angle of incidence symbolic or a number; the hypothesis that the parser inverts the printer is met by Printer (read_show).')
c('C103', P, 'C103_reversed C103_normal', '')
c('C104', H, 'C104_dat_to_fdat C104_fdat_to_dat C104_form_to_fform C104_fform_to_form C104_fform_to_fdat C104_fform_to_dat C104_form_to_fdat C104_edits C104_form_to_dat_partial C104_form_to_dat_refuted', 'REFUTED for form_to_dat on a formula that does not depend on the azimuth; proved for all other conversions.')
c('C105', P, 'C105_csv C105_load C105_file C105_outcome C105_dark C105_dark_keys', 'A file is given by the rows csv.reader yields and float() by an arbitrary partial function (finite values). C105_dark assumes points in order and angles that agree up to the tolerance of np.isclose, and equal lengths of the two first files (the code compares those).')
c('C106', H, 'C106_mean_refuted C106_cubic_refuted C106_seam_partial C106_polygon C106_interpolator', 'REFUTED for linear interpolation and for the default cubic kind (on four points a cubic spline is the cubic polynomial through them). C106_seam_partial gives the exact change for linear interpolation; C17 covers shifts by multiples of the spacing. C106_interpolator: linear interpolation meets the assumptions made about interpolators in C17-C19, C74 and C89.')
c('C107', H, 'C107_success C107_fails C107_other_folders C107_folder C107_keeps_refuted C107_half_refuted C107_reached', 'REFUTED for failing calls; C107_reached says exactly which files a failing call leaves. The model writes the files one after the other; the parent folder is taken to exist, and of a source that does not compile nothing is copied.')
c('C108', H, 'C108_pattern C108_reload_partial C108_polarizations C108_bracket_refuted C108_star_refuted C108_characters C108_brackets C108_own', 'REFUTED for keys with *, ? or [. fnmatch is modelled in full for one path component; keys with a slash are not modelled.')
c('C109', P, 'C109_real C109_transform C109_history C109_samples C109_evaluated C109_generated C109_formula C109_cost', 'Formulas as in C20 (M = 16) and C23 (lookup-table terms, M <= 16).')
c('C110', P, 'C110_intensities C110_data C110_history C110_largest C110_normalize C110_generated C110_negative', 'C110_negative shows that the sign condition is needed.')
c('C111', H, 'C111_exact C111_real C111_undeclared_refuted', 'REFUTED for parameters not declared real.')
c('C112', P, 'C112_fourier_data C112_fourier_formula C112_formula', 'An entry sympify refuses counts as malformed; an array is given by its dtype class, number of axes and entries.')
c('C113', P, 'C113_dipole C113_quadrupole C113_isotropic C113_setting', 'Follows from invariance of the more symmetric entry (C38, C40) and completeness of the less symmetric one (C39, C40).')
c('C114', P, 'C114_exchange C114_full C114_particularize', 'particularize is modelled with sympy.solve abstracted to a sound solver, as in C33.')
c('C115', H, 'C115_refuted C115_noise_partial C115_misfit_partial', 'REFUTED for unequally spaced angles (the amplification is unbounded). Proved for equally spaced angles and any interpolation exact at its nodes.')
c('C116', P, 'C116_data C116_any_order C116_formula C116_misfit', 'Nothing is assumed of the interpolation, of sympy or of the formula.')
c('C117', P, 'C117_complex C117_real', 'Through the complete chain: tables, make_tensor_real/complex, fformgen, load, gen_cost_func. The optimizers themselves are not modelled.')
c('C118', P, 'C118_cost C118_orientation', 'Through transform, fformgen, load, phase_shift_fdata and gen_cost_func.')
c('C119', P, 'C119_orders C119_cost', 'The bound 8 is that of C48. The second theorem covers the crystals of the tables, made real or complex.')
c('C120', P, 'C120_fixed C120_constrained', 'The second theorem is for formulas whose parameters are declared real, which is what fits are made of; the substitutions keep what was declared (real for real).')
c('C121', P, 'C121_scale', 'Negative scales are excluded: intensities are not negative.')
c('C122', P, 'C122_frame C122_last C122_angles', 'The directory is a dictionary from file names to arrays.')
c('C123', P, 'C123_phase C123_start C123_filter C123_fourier C123_wrapped', 'An unknown unit raises and changes nothing (C05, C16); it contributes 0 to the sum.')
c('C124', P, 'C124_least_squares C124_basinhopping', 'For fits that would otherwise run: guess and bounds complete, cost function generated.')
c('C125', P, 'C125_spelling C125_only', 'Different keys of one input that spell the same combination overwrite each other; C125_spelling covers this too, since it compares inputs position by position.')
c('C126', P, 'C126_file C126_file_symb C126_cost C126_best', 'The bound grows with the parameters, as the error of rounded coefficients must.')
c('C127', H, 'C127_first_partial C127_first_call_partial C127_pinned C127_stale_refuted', 'REFUTED for a name loaded before in the process. Rests on the documented behaviour of dlopen modelled in LibModel.')
c('C128', H, 'C128_bare C128_bare_refuted C128_next_partial', 'REFUTED for a str without a slash. Rests on the documented behaviour of dlopen modelled in LibModel.')
c('C129', P, 'C129_even C129_cost', 'The angle a is that of the reflection matrix in the frame of the tensors.')
c('C130', H, 'C130_first_partial C130_next_partial C130_pinned C130_stale_refuted', 'REFUTED: loading after a second save in the same process gives the first model. Partial: it holds for a folder not loaded from before, and in the next process; C130_pinned says what comes back otherwise.')
c('C131', H, 'C131_extremes C131_ignored_partial C131_wiped C131_zero C131_subtract C131_scale C131_ignored_refuted', 'REFUTED when a polarization begins with nan. C131_extremes says for every container what is reported; Flocq binary64 arithmetic, one nan, angles real.')
c('C132', P, 'C132_normal C132_cost', 'Exact arithmetic. That the interpolated Fourier data of coerced raw data are exact copies is not claimed (numerical integration); copies is a condition on the Fourier data.')
c('C133', H, 'C133_contiguous_partial C133_converted C133_model C133_memory C133_finite C133_views_refuted C133_integers_refuted C133_short_refuted', 'REFUTED for cost functions called with views, integers or short arrays. C133_memory says what is computed in every case. Words are Flocq bit patterns; one axis; integers below 2^53 where they are converted.')
c('C134', H, 'C134_whole_partial C134_exact C134_parts_refuted', 'REFUTED: after a failed compilation nothing can be loaded under the name. C134_whole_partial asks that sympy does not bring in real and imaginary parts that were not there.')
c('C135', H, 'C135_saved_partial C135_worker_partial C135_pinned C135_here C135_mixed_refuted C135_here_refuted', 'REFUTED when another model is saved in the folder, and for models in the working directory. The loader is modelled as in C127 and C130; the working directory does not change.')
c('C136', P, 'C136_cost', 'Cost functions over real numbers; the fits themselves (scipy) are not modelled, only what is minimised. Factor 0 keeps the cost formula but not the correspondence of minima.')
c('C137', P, 'C137_cubic C137_linear C137_nodes C137_others', 'IEEE 754 doubles and single precision of Flocq, all nans alike. The interpolators are those of scipy interp1d, read from its documentation and source: kind linear in full, the spline kinds only in what they do with nan.')
c('C138', P, 'C138_least_squares C138_dual_annealing C138_basinhopping C138_bounded C138_jac', 'Exact real arithmetic. Not that the same parameters come back: other values may simulate the same data (C87). Result dictionaries with values of dictionaries for simulation, i.e. rational numbers, which all floats are.')
c('C139', P, 'C139_least_squares C139_dual_annealing C139_basinhopping C139_bounded C139_jac C139_noise', 'Exact real arithmetic. About the curves, not the parameters: different parameters may give nearly the same curve.')
c('C140', P, 'C140_fourier C140_data', 'Exact real arithmetic. The data are resampled exactly only for multiples of the spacing (C17).')
c('C141', P, 'C141_step C141_series C141_reuse', 'Exact real arithmetic. The optimisers are arguments of which only is assumed that the point returned is no worse than the start. Fits that return. In C141_series each fit builds its own cost function, in C141_reuse all but the first load the one saved by the first, under a name no gradient is saved under.')
c('C142', P, 'C142_fixed C142_complete C142_tied C142_crystal_complex C142_crystal_real', 'Exact real arithmetic; the numbers put in are real. The optimisers are arguments, as in C141. If the substitution makes another parameter disappear (a*b with a = 0), the second fit needs a guess for it, otherwise it raises KeyError: the condition of C142_complete.')
c('C143', P, 'C143_cost C143_fit', 'Exact real arithmetic. Order 16, arrays of sympy expressions (C20, C21). Values that are rational numbers, as all floats are.')
c('C144', P, 'C144_complex C144_no_more C144_choice C144_real C144_clash_refuted C144_same_refuted', 'The claim is about names that do not clash; the last two theorems show what is lost when they do (no error is raised).')
c('C145', P, 'C145_band C145_sharp C145_formula', 'Exact real arithmetic. Improves the bounds of C18 (2M) and C74 (32).')
c('C146', P, 'C146_same C146_cost C146_fit', 'Exact real arithmetic; the interpolator is exact at the points, the optimiser finds the minimum (within the bounds, which hold the truth). Cases: C146_case, C146_case_crystal.')
c('C147', P, 'C147_sign C147_fit C147_zincblende C147_normal', 'Exact real arithmetic, as in C146. Case: C147_case.')
c('C148', P, 'C148_patterns C148_parameter C148_zincblende', 'Exact real arithmetic, optimisers as in C139. For zincblende the bound is written out for the least squares fit. Case: C148_case.')
c('C149', P, 'C149_misfit C149_cost C149_dark C149_formgen', 'Exact real arithmetic. Case: the parameter zzz of class C_4v (C149_case).')
c('C150', P, 'C150_same C150_cost C150_fit', 'Exact real arithmetic; formulas `covered` as in C23; the interpolation is exact at its nodes; optimisers are assumed to find the minimum. Case: a cos(phi) sin(phi) and 25 points, where the cost of every other value of a is positive (C150_case).')

here = os.path.dirname(os.path.dirname(os.path.abspath(__file__)))
with open(os.path.join(here, 'MANIFEST.json'), 'w') as fh:
    json.dump({'claims': claims}, fh, indent=1)
    fh.write('\n')
