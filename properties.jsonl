{"id": "C01", "title": "Constructed data is in normal form", "statement": "Every successfully constructed DataContainer exposes, for every key, angles in [0, 2*pi) in nondecreasing order, with angle and value columns of equal non-zero length, and the same keys in the same order as the input.", "quantifier": "for every input dictionary, unit and incidence flag for which construction succeeds", "why_tests_cant": "the angles are arbitrary reals, in any order and number; tests only try a few files", "anchors": ["shgpy/core/data_handler.py:DataContainer.__init__", "shgpy/core/data_handler.py:DataContainer._remove_duplicates", "shgpy/core/data_handler.py:DataContainer._modulate_data_dict", "shgpy/core/data_handler.py:DataContainer._sort_data_dict"]}
{"id": "C02", "title": "Duplicate angles are removed at construction", "statement": "After construction no two points of one polarization have the same angle modulo 2*pi.", "quantifier": "for every input data set (claim); holds for data given inside one turn, refuted for data outside [0, 2*pi)", "why_tests_cant": "the failure needs two angles that coincide modulo 2*pi and lie outside the first turn; fixtures never contain them", "anchors": ["shgpy/core/data_handler.py:DataContainer._remove_duplicates"]}
{"id": "C03", "title": "Construction invents no measurement and drops only repeated angles", "statement": "Every stored point is an input point with its angle reduced modulo 2*pi; every input angle is represented modulo 2*pi; for input inside one turn the value kept for an angle is the first one given.", "quantifier": "for every input data set and every point of it", "why_tests_cant": "quantifies over all data sets, including orderings and repetitions no fixture has", "anchors": ["shgpy/core/data_handler.py:DataContainer.__init__", "shgpy/core/data_handler.py:DataContainer._remove_duplicates"]}
{"id": "C04", "title": "Degrees and radians describe the same container", "statement": "Constructing from degrees gives the same container as constructing from the angles converted to radians, and every accessor in degrees returns 180/pi times the angle it returns in radians, with identical values.", "quantifier": "for every data set and every accessor", "why_tests_cant": "a sign or factor error in one accessor only shows on data that is not symmetric", "anchors": ["shgpy/core/data_handler.py:DataContainer._convert_data_dict_to_radians", "shgpy/core/data_handler.py:DataContainer._get_data_dict_degrees", "shgpy/core/data_handler.py:DataContainer.get_pc", "shgpy/core/data_handler.py:DataContainer.get_items"]}
{"id": "C05", "title": "Unit names are handled uniformly", "statement": "A unit name is accepted by the constructor exactly when it is accepted by the accessors and by phase_shift_data.", "quantifier": "for every string (claim); refuted: the accessors ignore case, the constructor does not", "why_tests_cant": "tests only use the two lower-case spellings", "anchors": ["shgpy/core/data_handler.py:DataContainer.__init__", "shgpy/core/data_handler.py:DataContainer._check_angle_units", "shgpy/core/data_handler.py:DataContainer.get_pc"]}
{"id": "C06", "title": "Malformed containers are rejected before any state exists", "statement": "Construction raises ValueError on a bad unit, a non-string key, a value that is not a numeric two-dimensional array with equally shaped first rows, or a polarization without points; every other outcome of construction is success.", "quantifier": "for every iterable of key/value pairs", "why_tests_cant": "the set of malformed inputs is infinite; tests sample three", "anchors": ["shgpy/core/data_handler.py:DataContainer._check_defining_iterable", "shgpy/core/data_handler.py:DataContainer.__init__"]}
{"id": "C07", "title": "Scaling is tracked exactly over any history", "statement": "After any sequence of scale_data calls (failing calls included) get_scale() is the product of the factors accepted, every value is the original value times that product, angles and keys are untouched, and a rejected negative factor changes nothing.", "quantifier": "for every container and every finite sequence of calls", "why_tests_cant": "histories are unbounded and mix accepted and rejected calls", "anchors": ["shgpy/core/data_handler.py:DataContainer.scale_data", "shgpy/core/data_handler.py:DataContainer.get_scale"]}
{"id": "C08", "title": "normalize_data reaches the requested maximum", "statement": "If the current maximum is positive and the desired maximum non-negative, normalize_data(d) succeeds and the maximum afterwards is exactly d; with a negative maximum and positive d it raises ValueError and changes nothing.", "quantifier": "for every container and every desired maximum", "why_tests_cant": "values are arbitrary reals over any number of polarizations", "anchors": ["shgpy/core/data_handler.py:DataContainer.normalize_data", "shgpy/core/data_handler.py:DataContainer.get_maxval"]}
{"id": "C09", "title": "Extrema are genuine and attributed to the first polarization attaining them", "statement": "get_maxval (get_minval) returns an upper (lower) bound of all values, which is attained in the returned polarization, and no earlier polarization attains it; get_pc_maxval/minval do the same for one polarization.", "quantifier": "for every constructed container", "why_tests_cant": "ties and negative data are needed to separate > from >= and the -inf start value", "anchors": ["shgpy/core/data_handler.py:DataContainer.get_maxval", "shgpy/core/data_handler.py:DataContainer.get_minval", "shgpy/core/data_handler.py:DataContainer.get_pc_maxval", "shgpy/core/data_handler.py:DataContainer.get_pc_minval"]}
{"id": "C10", "title": "subtract_min makes the minimum zero and preserves differences", "statement": "After subtract_min the global minimum is 0, all differences between values are unchanged, angles are unchanged and the recorded offset decreases by the old minimum; a second call changes nothing.", "quantifier": "for every constructed container", "why_tests_cant": "requires arbitrary data over several polarizations", "anchors": ["shgpy/core/data_handler.py:DataContainer.subtract_min", "shgpy/core/data_handler.py:DataContainer.get_offset"]}
{"id": "C11", "title": "The recorded scale and offset reconstruct the data", "statement": "For every history of scale_data, normalize_data and subtract_min, current value = get_scale() * original value + get_offset().", "quantifier": "for every container and history (claim); holds while no offset precedes a scaling, refuted in general because scaling does not rescale the recorded offset", "why_tests_cant": "only histories that scale after subtracting expose it", "anchors": ["shgpy/core/data_handler.py:DataContainer.scale_data", "shgpy/core/data_handler.py:DataContainer.subtract_min", "shgpy/core/data_handler.py:DataContainer.get_offset"]}
{"id": "C12", "title": "phase_shift_data is an action of the circle on the data", "statement": "Shifting by a then b gives the same points as shifting by a+b; shifting by a multiple of 2*pi gives back the same points; values are permuted together with their angles; the recorded phase shift is the sum of all shifts; results stay in normal form.", "quantifier": "for every container and every finite sequence of shifts in either unit", "why_tests_cant": "wrap-around position depends on the shift; only a proof covers all of them", "anchors": ["shgpy/core/data_handler.py:DataContainer.phase_shift_data", "shgpy/core/data_handler.py:DataContainer.get_phase_shift"]}
{"id": "C13", "title": "normal_to_oblique completes the four polarizations consistently", "statement": "With normal_to_oblique=True construction succeeds exactly when the first two letters, upper-cased, of the keys form {PP,PS,SP,SS} or one of the four pairs {PP|SS} x {PS|SP}; the result has exactly the four keys, and each missing combination is its partner (PP<->SS, PS<->SP) rotated by 90 degrees: it has value y at angle x+pi/2 exactly when the partner has value y at x.", "quantifier": "for every input dictionary", "why_tests_cant": "sixteen or more key subsets times arbitrary spellings and data", "anchors": ["shgpy/core/data_handler.py:DataContainer._coerce_to_oblique_incidence"]}
{"id": "C14", "title": "normal_to_oblique returns the documented key order", "statement": "The docstring promises get_keys() == ['PP','PS','SP','SS'] after coercion.", "quantifier": "for every accepted input (claim); refuted, the order starts with the given keys", "why_tests_cant": "only some of the input orders expose it", "anchors": ["shgpy/core/data_handler.py:DataContainer._coerce_to_oblique_incidence", "shgpy/core/data_handler.py:DataContainer.get_keys"]}
{"id": "C15", "title": "copy() returns an equal container that can be used in its place", "statement": "copy() succeeds and the copy answers every later sequence of method calls as the original would.", "quantifier": "for every container of the four classes and every later call sequence (claim); holds for form containers and for the Fourier data until a phase shift, refuted for DataContainer (always raises) and for fDataContainer followed by phase_shift_fdata", "why_tests_cant": "needs an operation after the copy; the failure is in the bookkeeping field", "anchors": ["shgpy/core/data_handler.py:DataContainer.copy", "shgpy/core/data_handler.py:fDataContainer.copy", "shgpy/core/data_handler.py:FormContainer.copy", "shgpy/core/data_handler.py:fFormContainer.copy"]}
{"id": "C16", "title": "Fourier-space data operations obey their group laws", "statement": "scale_fdata multiplies every coefficient and records the product; phase_shift_fdata by a then b equals a+b, by 2*pi is the identity, preserves magnitudes, and multiplies component m by exp(i*m*a); normalize_fdata makes the largest magnitude the requested one.", "quantifier": "for every M, coefficients, and sequence of operations", "why_tests_cant": "complex arithmetic over arbitrary M and histories", "anchors": ["shgpy/core/data_handler.py:fDataContainer.scale_fdata", "shgpy/core/data_handler.py:fDataContainer.phase_shift_fdata", "shgpy/core/data_handler.py:fDataContainer.normalize_fdata", "shgpy/core/data_handler.py:fDataContainer.get_maxval"]}
{"id": "C17", "title": "Phase shifting data and phase shifting its Fourier transform agree", "statement": "Transforming after DataContainer.phase_shift_data(a) gives the same coefficients as transforming and then fDataContainer.phase_shift_fdata(a).", "quantifier": "for every band-limited data set and shift (claim); refuted: the two methods shift in opposite directions, and the law holds with -a", "why_tests_cant": "even data or shifts by multiples of pi hide the sign", "anchors": ["shgpy/core/data_handler.py:DataContainer.phase_shift_data", "shgpy/core/data_handler.py:fDataContainer.phase_shift_fdata", "shgpy/core/data_handler.py:dat_to_fdat"]}
{"id": "C18", "title": "dat_to_fdat inverts fdat_to_dat", "statement": "For Hermitian coefficients (the transform of real data) of order M sampled at N > 2M points, transforming the samples back at order M with the same number of interpolation points returns the coefficients exactly.", "quantifier": "for every M, every N > 2M and every Hermitian coefficient vector; every interpolator that is exact at its nodes", "why_tests_cant": "M, N and the coefficients are unbounded; discrete orthogonality is a theorem, not a test", "anchors": ["shgpy/core/data_handler.py:fdat_to_dat", "shgpy/core/data_handler.py:dat_to_fdat"]}
{"id": "C19", "title": "The sampling condition is sharp", "statement": "Whatever the number of samples N, the round trip of C18 returns the aliased coefficient, the sum of the Hermitian parts of all coefficients congruent modulo N; hence with N <= 2M distinct Fourier data give identical samples.", "quantifier": "for every N >= 1 and every M", "why_tests_cant": "aliasing is a statement about all frequencies", "anchors": ["shgpy/core/data_handler.py:fdat_to_dat", "shgpy/core/data_handler.py:dat_to_fdat"]}
{"id": "C20", "title": "fform_to_fdat evaluates the formula at the given parameters", "statement": "For M = 16, fform_to_fdat(fform, d) succeeds exactly when d has a value for every free symbol of fform, each coefficient is then the value of the symbolic coefficient under d, and fform itself is unchanged; otherwise KeyError.", "quantifier": "for every Fourier formula and every parameter dictionary", "why_tests_cant": "symbolic expressions and dictionaries are unbounded; substitution is sequential in the code", "anchors": ["shgpy/core/data_handler.py:fform_to_fdat", "shgpy/core/data_handler.py:fFormContainer.subs", "shgpy/core/data_handler.py:fFormContainer.get_free_symbols"]}
{"id": "C21", "title": "Fourier containers of any order M survive conversion, merging and loading", "statement": "fform_to_fdat, form_to_fdat, merge_containers and load_fform work for any Fourier order M accepted by the constructor.", "quantifier": "for every M (claim); refuted: for every M other than 16 these raise ValueError", "why_tests_cant": "the suite only uses M = 16", "anchors": ["shgpy/core/data_handler.py:fform_to_fdat", "shgpy/core/data_handler.py:form_to_fdat", "shgpy/core/data_handler.py:merge_containers", "shgpy/core/data_handler.py:load_fform"]}
{"id": "C22", "title": "The Fourier lookup table is exact", "statement": "For every pair (c,s) in the table and every n with |n| <= 16 the entry is (1/2pi) * integral over one turn of cos^c(phi) sin^s(phi) exp(-i n phi), and the table contains every (c,s) with c+s <= 8.", "quantifier": "for every table entry (45 x 33 exact complex numbers), as a real-analysis integral", "why_tests_cant": "numerical quadrature can only confirm entries to rounding", "anchors": ["shgpy/core/_lookup_table.py:_lookup_table"]}
{"id": "C23", "title": "form_to_fform returns the Fourier coefficients of the formula", "statement": "For every formula that is a polynomial in cos(phi), sin(phi) of degree <= 8 the n-th component of form_to_fform evaluates to (1/2pi) * integral of formula * exp(-i n phi).", "quantifier": "for every expression, parameter values and n (claim); proved for sums whose summands are products of at least two factors and for single products of degree 0 or >= 2; refuted for a sum with an atomic or power summand, and for a single term linear in cos(phi) or sin(phi)", "why_tests_cant": "expressions are unbounded; the bug depends on the shape of the sympy tree", "anchors": ["shgpy/core/_fourier_transform.py:_fourier_transform", "shgpy/core/_fourier_transform.py:_get_keyterms", "shgpy/core/_fourier_transform.py:_get_code", "shgpy/core/data_handler.py:form_to_fform"]}
{"id": "C24", "title": "Fourier synthesis inverts Fourier analysis of formulas", "statement": "For formulas covered by C23 and 8 <= M <= 16, fform_to_form(form_to_fform(form, M)) denotes the same function of phi as form; for smaller M it is the truncated series.", "quantifier": "for every such formula, all parameter values and all phi", "why_tests_cant": "equality of functions at all angles", "anchors": ["shgpy/core/data_handler.py:form_to_fform", "shgpy/core/data_handler.py:fform_to_form"]}
{"id": "C25", "title": "form_to_fform supports every Fourier order", "statement": "form_to_fform(form, M) works for every M.", "quantifier": "for every M (claim); proved for M <= 16, refuted (IndexError) for every M > 16 as soon as the formula depends on phi", "why_tests_cant": "the suite never passes M", "anchors": ["shgpy/core/_fourier_transform.py:_fourier_transform", "shgpy/core/data_handler.py:form_to_fform"]}
{"id": "C26", "title": "Phase shifts of formulas commute with Fourier transformation", "statement": "Shifting a Fourier formula by a and synthesising gives the formula with phi replaced by phi+a; shifts add; fDataContainer, FormContainer and fFormContainer use the same sign.", "quantifier": "for every formula, shift expression, parameters and phi", "why_tests_cant": "holds as an identity of functions", "anchors": ["shgpy/core/data_handler.py:FormContainer.apply_phase_shift", "shgpy/core/data_handler.py:fFormContainer.apply_phase_shift", "shgpy/core/data_handler.py:fform_to_form"]}
{"id": "C27", "title": "Sampling a formula directly or through Fourier space gives the same data", "statement": "form_to_dat(fform_to_form(F), d, N) and fform_to_dat(F, d, N) give the same values at the same angles whenever both succeed.", "quantifier": "for every Fourier formula with real values, parameters and N", "why_tests_cant": "equality for all formulas and sample counts", "anchors": ["shgpy/core/data_handler.py:form_to_dat", "shgpy/core/data_handler.py:fform_to_dat", "shgpy/core/data_handler.py:fdat_to_dat", "shgpy/core/data_handler.py:fform_to_form"]}
{"id": "C28", "title": "form_to_dat accepts every fully substituted formula", "statement": "form_to_dat succeeds whenever the dictionary gives a value to every symbol other than phi.", "quantifier": "for every formula (claim); proved when some component depends on phi, refuted for constant formulas", "why_tests_cant": "fixtures always depend on phi", "anchors": ["shgpy/core/data_handler.py:form_to_dat"]}
{"id": "C29", "title": "merge_containers is the ordered union with the last container winning", "statement": "Merging containers of one supported type with key mapping functions yields exactly the mapped keys; the data of a key comes from the last container (and last key) mapped to it; other types raise TypeError.", "quantifier": "for every list of containers and every list of key mappings", "why_tests_cant": "collisions depend on the mapping functions", "anchors": ["shgpy/core/data_handler.py:merge_containers"]}
{"id": "C30", "title": "dat_add and dat_subtract act pointwise and are inverse", "statement": "They succeed only for equal key sets and matching angles, add or subtract values point by point at unchanged angles, and dat_subtract(dat_add(a,b),b) has the data of a.", "quantifier": "for every pair of containers", "why_tests_cant": "needs arbitrary key orders and data", "anchors": ["shgpy/core/data_handler.py:dat_add", "shgpy/core/data_handler.py:dat_subtract"]}
{"id": "C31", "title": "Tensor contraction is the indexed sum, in any rank and any pair order", "statement": "tensor_contract(t, pairs) equals the sum over repeated indices named by pairs, indexed by the remaining axes in order, for every rank, every list of disjoint pairs; the result does not depend on the order of the pairs or within a pair. A list that names an axis twice or a missing axis is refused.", "quantifier": "for every rank, dimension, tensor over a commutative ring and list of disjoint pairs", "why_tests_cant": "index bookkeeping after each trace is only exercised on three shapes by tests", "anchors": ["shgpy/core/utilities.py:tensor_contract", "shgpy/core/utilities.py:tensor_product"]}
{"id": "C32", "title": "transform is a group action on tensors of any rank", "statement": "transform(t, R) has components sum R[i1,a1]...R[ir,ar] t[a1..ar]; transform(t, I) = t; transform(transform(t, A), B) = transform(t, B A); it is linear in t.", "quantifier": "for every rank of at least 1, tensor and pair of matrices (rank 0 is refused)", "why_tests_cant": "unbounded rank and entries", "anchors": ["shgpy/core/utilities.py:transform"]}
{"id": "C33", "title": "particularize enforces the permutation symmetry", "statement": "For a rank-r tensor of dimension 3 the result is symmetric in its last two indices (in all indices with permute_all_indices=True), for all parameter values, whenever the solver returns a solution of the equations it was given; a tensor that is already symmetric is returned unchanged.", "quantifier": "for every tensor and every sound solver", "why_tests_cant": "tensors and ranks unbounded", "anchors": ["shgpy/core/utilities.py:particularize", "shgpy/core/utilities.py:_particularize_last_two", "shgpy/core/utilities.py:_particularize_all"]}
{"id": "C34", "title": "make_tensor_complex and make_tensor_real give real parameters with the intended meaning", "statement": "After either call every remaining symbol without a reality assumption is gone; the value of each entry equals the value of the original entry with x := real_x + i imag_x (resp. the real x); both are idempotent; the result passes the real-parameter check required by formgen and fformgen unless the input contained a symbol declared non-real. make_tensor_complex raises if a prefix or suffix makes the name of either part two names separated by a comma.", "quantifier": "for every tensor of expressions, every assignment, and all names sympy.symbols reads as one symbol (no commas, colons or blanks)", "why_tests_cant": "sequential string substitution over arbitrary names", "anchors": ["shgpy/core/utilities.py:make_tensor_complex", "shgpy/core/utilities.py:make_tensor_real", "shgpy/core/utilities.py:_assert_real_params"]}
{"id": "C35", "title": "rotation_matrix3 returns the rotation about the axis", "statement": "For every non-zero axis of floats and every angle the matrix is orthogonal with determinant 1, fixes the axis, has trace 1+2cos t, rotates perpendicular vectors by t in the right-handed sense; angles add about a fixed axis; scaling the axis by a positive factor changes nothing.", "quantifier": "for every axis and angle; refuted for integer arrays, where normalisation truncates", "why_tests_cant": "continuum of axes and angles", "anchors": ["shgpy/core/utilities.py:rotation_matrix3", "shgpy/core/utilities.py:rotation_matrix3symb"]}
{"id": "C36", "title": "rotation_matrix_from_two_vectors is a rotation taking one direction to the other", "statement": "For all non-zero vectors the (unrounded) result is a proper rotation mapping v_initial/|v_initial| to v_final/|v_final|, and rounding changes each entry by at most half a unit of the last kept digit.", "quantifier": "for every pair of vectors (claim); proved for all non-antiparallel pairs, refuted for antiparallel ones where -identity is returned (determinant -1)", "why_tests_cant": "special direction pairs are a measure-zero set", "anchors": ["shgpy/core/utilities.py:rotation_matrix_from_two_vectors", "shgpy/core/utilities.py:_cross_product", "shgpy/core/utilities.py:_levi_civita"]}
{"id": "C37", "title": "union keeps the first occurrence of every element in order", "statement": "union(*arrays) contains exactly the elements of the arrays, each once, ordered by first occurrence.", "quantifier": "for every list of arrays", "why_tests_cant": "unbounded lists", "anchors": ["shgpy/core/utilities.py:union"]}
{"id": "C38", "title": "Every tabulated dipole tensor is invariant under its point group", "statement": "For each of the 32 names, the dipole (and surface) tensor is unchanged by transform with every operation of a point group of that name, for all values of its parameters.", "quantifier": "for all parameter values, for every element of each group", "why_tests_cant": "parameters are free reals; the group is a set of matrices", "anchors": ["shgpy/tensor_definitions.py:dipole", "shgpy/tensor_definitions.py:surface", "shgpy/core/utilities.py:transform"]}
{"id": "C39", "title": "Every invariant tensor is an instance of the tabulated dipole tensor", "statement": "For each name, any rank-3 tensor invariant under the group is obtained from the tabulated tensor by a choice of parameters, and that choice is unique.", "quantifier": "for every real rank-3 tensor invariant under the group", "why_tests_cant": "universal statement about all invariant tensors", "anchors": ["shgpy/tensor_definitions.py:dipole"]}
{"id": "C40", "title": "The tabulated quadrupole tensors are invariant and complete", "statement": "As C38 and C39 for the quadrupole tensors of rank 4: every one of the 32 documented point groups and the isotropic medium has an entry, and that entry is the general invariant tensor.", "quantifier": "for all parameter values and all invariant tensors", "why_tests_cant": "as C38", "anchors": ["shgpy/tensor_definitions.py:quadrupole"]}
{"id": "C41", "title": "Dipole and quadrupole tables use the same crystal axes", "statement": "For each group name the dipole and quadrupole tensors are invariant under one common orientation of the group.", "quantifier": "for each name that occurs in both tables; refuted for names where the two tables need different orientations", "why_tests_cant": "requires comparing symmetry groups of parametrised tensors", "anchors": ["shgpy/tensor_definitions.py:dipole", "shgpy/tensor_definitions.py:quadrupole"]}
{"id": "C42", "title": "The surface table is the dipole table with renamed parameters", "statement": "For every name surface[name] is dipole[name] with each parameter x replaced by sx.", "quantifier": "for all 32 names and all 27 entries", "why_tests_cant": "copy-paste errors in 864 entries", "anchors": ["shgpy/tensor_definitions.py:surface", "shgpy/tensor_definitions.py:dipole"]}
{"id": "C43", "title": "Generated intensities are physical", "statement": "For all real parameter values and angles, the formulas generated by formgen for PP, PS, SP, SS evaluate to non-negative real numbers and the radiating source is orthogonal to the outgoing wave vector.", "quantifier": "for every tensor triple, angle of incidence, phi and parameter value", "why_tests_cant": "continuum of inputs", "anchors": ["shgpy/formgen.py:gen_S", "shgpy/formgen.py:formgen"]}
{"id": "C44", "title": "formgen implements the multipole radiation formula", "statement": "formgen(theta, eee, mee, qee) evaluates to the component-wise formula |proj(P + k x M + i Q.k)|^2 with the crystal rotated by phi about z, for the in/out polarizations named by the key; it raises ValueError exactly when all tensors are None (or a parameter is not real).", "quantifier": "for every combination of tensors, angle of incidence, phi and parameters", "why_tests_cant": "index contractions are easy to permute silently", "anchors": ["shgpy/formgen.py:gen_S", "shgpy/formgen.py:formgen", "shgpy/formgen.py:gen_levi_civita"]}
{"id": "C45", "title": "The deprecated generators agree with their replacement", "statement": "formgen_just_dipole(t,theta) and formgen_dipole_quadrupole(t,q,theta) denote the same functions as formgen(theta,t) and formgen(theta,t,None,q); make_form_from_P_and_Q applied to the gen_P functions does too.", "quantifier": "for all tensors, angles and parameters; refuted for gen_P_just_dipole, whose zero quadrupole is rejected", "why_tests_cant": "identity of functions", "anchors": ["shgpy/formgen.py:formgen_just_dipole", "shgpy/formgen.py:formgen_dipole_quadrupole", "shgpy/formgen.py:make_form_from_P_and_Q", "shgpy/formgen.py:gen_P_just_dipole", "shgpy/formgen.py:gen_P_dipole_quadrupole"]}
{"id": "C46", "title": "A crystal with a rotation axis along z gives a periodic pattern", "statement": "If the tensors are invariant under rotation by a about z, every generated intensity is periodic in phi with period a; with an n-fold axis only Fourier components divisible by n survive.", "quantifier": "for every such tensor, every angle of incidence", "why_tests_cant": "universal over tensors and angles", "anchors": ["shgpy/formgen.py:formgen", "shgpy/tensor_definitions.py:dipole", "shgpy/core/utilities.py:transform"]}
{"id": "C47", "title": "normal_to_oblique is justified by formgen at normal incidence", "statement": "At theta = 0 the formulas satisfy SS(phi+pi/2) = PP(phi) and SP(phi+pi/2) = PS(phi) and vice versa, the relation the data coercion of C13 imposes.", "quantifier": "for all tensors, parameters and phi", "why_tests_cant": "identity of functions", "anchors": ["shgpy/formgen.py:formgen", "shgpy/core/data_handler.py:DataContainer._coerce_to_oblique_incidence"]}
{"id": "C48", "title": "Generated formulas never exceed the lookup table", "statement": "Every intensity produced by formgen is a trigonometric polynomial in phi of degree at most 6 (dipole only) or 8, so all Fourier components beyond are zero.", "quantifier": "for all tensors, angles of incidence and parameters", "why_tests_cant": "universal over tensors", "anchors": ["shgpy/formgen.py:formgen", "shgpy/core/_lookup_table.py:_lookup_table"]}
{"id": "C49", "title": "Fourier-space convolution multiplies tensor-valued functions", "statement": "_convolve_ftensors returns the coefficients of the tensor product of the two functions whenever the bandwidths add up to at most M; otherwise components wrap around through negative indices.", "quantifier": "for every M, shapes, coefficient arrays and bandwidths", "why_tests_cant": "wrap-around needs bandwidths no fixture reaches", "anchors": ["shgpy/fformgen.py:_convolve_ftensors"]}
{"id": "C50", "title": "The Fourier formula generator is correct", "statement": "For M = 16 the contracted Fourier transforms, summed as a Fourier series, equal for every phi the squared modulus of the projected dipole+quadrupole source in the documented geometry.", "quantifier": "for all complex tensors, angles of incidence and phi", "why_tests_cant": "eleven convolutions and eight contraction lists; tests compare a few coefficients", "anchors": ["shgpy/fformgen.py:generate_uncontracted_fourier_transforms", "shgpy/fformgen.py:generate_contracted_fourier_transforms"]}
{"id": "C51", "title": "Both formula generators describe the same experiment", "statement": "The Fourier formulas of fformgen are the Fourier coefficients of formgen for the same tensors and angle of incidence.", "quantifier": "for all tensors and angles (claim); refuted: the two differ by a half turn of phi, coefficient m by (-1)^m, and agree after apply_phase_shift(pi)", "why_tests_cant": "even-order symmetric crystals hide the difference", "anchors": ["shgpy/fformgen.py:generate_uncontracted_fourier_transforms", "shgpy/formgen.py:formgen"]}
{"id": "C52", "title": "The fit cost is the squared misfit", "statement": "The cost built from a Fourier formula and Fourier data is the sum over polarizations and frequencies of |formula - data|^2; it is non-negative, zero exactly when the formula reproduces the data, and equals the mean squared misfit in phi-space over any grid with more than 2M points.", "quantifier": "for all formulas, data and parameter values", "why_tests_cant": "Parseval identity over all M and N", "anchors": ["shgpy/fformfit.py:_make_energy_expr"]}
{"id": "C53", "title": "Chunking does not change the cost or the model", "statement": "Splitting an expression into chunks of any positive size preserves its value, every chunk is non-empty and no larger than requested; chunk size 0 raises ZeroDivisionError.", "quantifier": "for every list of terms and chunk size", "why_tests_cant": "boundary sizes", "anchors": ["shgpy/fformfit.py:_split", "shgpy/fformfit.py:_split_expr", "shgpy/fformfit.py:_make_energy_expr_list"]}
{"id": "C54", "title": "Mismatched Fourier orders are detected by the fit", "statement": "Building the cost from a formula and data of different order M raises an error.", "quantifier": "for all orders (claim); refuted: data of higher order is silently misaligned, lower order raises IndexError", "why_tests_cant": "the suite only uses equal orders", "anchors": ["shgpy/fformfit.py:_make_energy_expr", "shgpy/core/_fourier_transform.py:n2i"]}
{"id": "C55", "title": "Fit results are attributed to the right parameters", "statement": "For every optimiser, the returned dictionary maps each free symbol to its own coordinate, the start vector and bounds are in the same order, and a start dictionary without one of the symbols raises KeyError; a formula without free parameters is refused without calling the optimiser.", "quantifier": "for every formula, start dictionary and optimiser behaviour", "why_tests_cant": "ordering is by string sort of arbitrary names", "anchors": ["shgpy/fformfit.py:basinhopping_fit", "shgpy/fformfit.py:dual_annealing_fit_with_bounds", "shgpy/fformfit.py:least_squares_fit"]}
{"id": "C56", "title": "Fitting does not alter the options passed in", "statement": "Calling basinhopping_fit twice with the same options dictionary runs the same local minimiser options twice.", "quantifier": "for every options dictionary (claim); refuted: the first call removes minimizer_kwargs from it", "why_tests_cant": "requires a second call with the same dictionary", "anchors": ["shgpy/fformfit.py:basinhopping_fit"]}
{"id": "C57", "title": "A saved model reloads as the same model", "statement": "After saving a compiled model to a folder, loading it with the same keys evaluates to the same complex value for every polarization, frequency and parameter vector, whatever the folder contained before and in whatever order the files are listed.", "quantifier": "for every formula, folder content and directory order (claim); proved when no key together with frequency and component is a prefix of another file name; refuted for keys that contain such a suffix", "why_tests_cant": "file-name collisions depend on keys", "anchors": ["shgpy/fformfit.py:_load_func_dict", "shgpy/fformfit.py:gen_model_func", "shgpy/fformfit.py:load_model_func"]}
{"id": "C58", "title": "A saved cost gradient reloads as the same gradient", "statement": "Loading a saved cost and gradient returns exactly the functions last saved under that prefix.", "quantifier": "for every history of saves (claim); proved on a fresh prefix or after saving at least as many components, refuted when an earlier save had more components", "why_tests_cant": "requires two saves with different parameter counts", "anchors": ["shgpy/fformfit.py:_load_energy_and_denergy_func", "shgpy/fformfit.py:_make_denergy_func_auto"]}
{"id": "C59", "title": "Saving and loading a Fourier formula is lossless", "statement": "load_fform(save_fform(F)) has the keys and expressions of F.", "quantifier": "for every Fourier formula, given that the expression printer and parser are inverse (claim); proved for order 16, see C21 for others", "why_tests_cant": "all formulas", "anchors": ["shgpy/core/data_handler.py:save_fform", "shgpy/core/data_handler.py:load_fform"]}
{"id": "C60", "title": "as_pandas labels every value with its own angle", "statement": "Every row of as_pandas(units, index) carries a polarization, an angle and a value that occur together in the container, and every point appears once.", "quantifier": "for every container (claim); proved for index='none' and for containers whose polarizations share one angle list, refuted for index='multi' otherwise, in particular after normal_to_oblique", "why_tests_cant": "fixtures share one angle grid", "anchors": ["shgpy/core/data_handler.py:DataContainer.as_pandas"]}
{"id": "C61", "title": "Reading a container never exposes its internal arrays", "statement": "Writing to an array returned by get_pc, get_values or get_items does not change the container, and containers never share arrays with the caller or each other.", "quantifier": "for every heap, container and sequence of writes (claim); proved for get_pc, the degree accessors, construction and merging; refuted for get_values and get_items in radians", "why_tests_cant": "aliasing is a property of histories", "anchors": ["shgpy/core/data_handler.py:DataContainer.get_pc", "shgpy/core/data_handler.py:DataContainer.get_items", "shgpy/core/data_handler.py:DataContainer.get_values", "shgpy/core/data_handler.py:DataContainer.__init__"]}
{"id": "C62", "title": "Plots show every requested polarization exactly once", "statement": "easy_plot with one to four polarizations uses a grid with exactly that many axes and refuses more than four; easy_polar_plot works for any positive number.", "quantifier": "for every list of polarizations (claim); the polar half is refuted for a single polarization", "why_tests_cant": "rendering tests are not run", "anchors": ["shgpy/plotter.py:easy_plot", "shgpy/plotter.py:easy_polar_plot"]}
{"id": "C63", "title": "load_data_and_fourier_transform returns a data set and its transform", "statement": "The pair returned by load_data_and_fourier_transform satisfies fdat = transform of dat, for every scale.", "quantifier": "for every file content and scale (claim); proved for scale 1, refuted (AttributeError) for every other scale", "why_tests_cant": "the suite uses the default scale", "anchors": ["shgpy/core/data_handler.py:load_data_and_fourier_transform"]}
{"id": "C64", "title": "The order of the Fourier generators can be chosen", "statement": "generate_uncontracted_fourier_transforms(M=...) followed by generate_contracted_fourier_transforms(M=...) returns the Fourier coefficients of the intensity for every order large enough to hold them.", "quantifier": "for every order M, all tensors and angles (claim); refuted: 0 and everything above 16 raises IndexError, from 1 to 15 every coefficient of frequency -4 or more is zero; proved for 16 (C50)", "why_tests_cant": "only the default order is used by the suite; smaller orders return well-formed wrong results", "anchors": ["shgpy/fformgen.py:generate_uncontracted_fourier_transforms", "shgpy/fformgen.py:generate_uncontracted_fourier_transforms_symb", "shgpy/fformgen.py:_convolve_ftensors"]}
{"id": "C65", "title": "The gradient given to the optimiser is the gradient of the cost", "statement": "Whenever cost and gradient are generated, every component of the gradient is the partial derivative of the squared misfit with respect to its parameter; it can be generated whenever the cost can and depends on a parameter. Chunking together with a gradient is refused before anything is written.", "quantifier": "for all formulas, data, argument lists and parameter values; the second half is proved for formulas in real parameters without conjugates and refuted for complex ones (OSError)", "why_tests_cant": "finite differences test single points; the failure depends on how symbols were declared", "anchors": ["shgpy/fformfit.py:_make_denergy_expr", "shgpy/fformfit.py:_make_energy_and_denergy_func_wrapper", "shgpy/fformfit.py:basinhopping_fit_jac"]}
{"id": "C66", "title": "A saved cost can be reused by a fit", "statement": "Fitting with load_cost_func_filename set to a file written by gen_cost_func gives the same fit as generating the cost.", "quantifier": "for all formulas, data, start values and optimisers (claim); proved for the default argument list, refuted when the cost was saved with another argument order: the fit minimises a cost of permuted parameters without an error", "why_tests_cant": "requires combining two calls with different argument orders", "anchors": ["shgpy/fformfit.py:gen_cost_func", "shgpy/fformfit.py:load_func", "shgpy/fformfit.py:least_squares_fit"]}
{"id": "C67", "title": "An argument list that misses a parameter is refused", "statement": "gen_cost_func with an argument_list that lacks a free symbol of the formula raises an error. False without chunking: a function is returned whose call is undefined. What holds: whatever is missing or repeated in the list, the result never computes a wrong cost; it is an error or an undefined call, or the squared misfit whatever the missing parameters are; chunked generation refuses every list that misses a parameter on which the misfit depends.", "quantifier": "for all formulas, data, argument lists and parameter values", "why_tests_cant": "undefined behaviour of compiled code may look right", "anchors": ["shgpy/fformfit.py:gen_cost_func", "shgpy/fformfit.py:_make_energy_func_auto", "shgpy/fformfit.py:_make_energy_func_chunked"]}
{"id": "C68", "title": "Loading something that was never saved is an error", "statement": "load_func, load_model_func and the fits raise when the files they are asked to load do not exist.", "quantifier": "for all names (claim); proved for cost functions, refuted for models: a missing or empty folder loads as the model that is zero everywhere", "why_tests_cant": "silent success looks like a valid model", "anchors": ["shgpy/fformfit.py:load_model_func", "shgpy/fformfit.py:_load_func_dict", "shgpy/fformfit.py:load_func"]}
{"id": "C69", "title": "Generating a cost touches only its own file", "statement": "gen_cost_func writes the named file and no other, nothing without a name, and leaves the file alone when it fails.", "quantifier": "for all formulas, data and directories (claim); the last part is proved for formulas with at least one polarization and refuted for the empty formula, chunked", "why_tests_cant": "needs a failing generation on top of an existing file", "anchors": ["shgpy/fformfit.py:gen_cost_func", "shgpy/fformfit.py:_make_energy_func_chunked"]}
{"id": "C70", "title": "Turning the crystal is a phase shift", "statement": "Transforming all tensors by a rotation about the surface normal by the angle a and generating formulas gives the formulas of the unturned crystal with phi replaced by phi + a, i.e. apply_phase_shift by a.", "quantifier": "for all tensors, angles of incidence, parameter values and rotation angles (numeric or symbolic)", "why_tests_cant": "tests compare single crystals at single angles; the sign of the shift is a convention shared by two modules", "anchors": ["shgpy/formgen.py:formgen", "shgpy/core/utilities.py:transform", "shgpy/core/data_handler.py:FormContainer.apply_phase_shift"]}
{"id": "C71", "title": "Multiplying all tensors by a constant scales the intensities by its squared modulus", "statement": "formgen of c*e, c*m, c*q equals |c|^2 times formgen of e, m, q; a common phase or sign of the tensors is not observable.", "quantifier": "for all complex constants or real-symbol expressions c, all tensors and values", "why_tests_cant": "quantifies over all constants; a wrong conjugate shows only for complex values", "anchors": ["shgpy/formgen.py:formgen"]}
{"id": "C72", "title": "Mirror planes show in the pattern", "statement": "If the tensors are invariant under a mirror plane that contains the surface normal and makes the angle a with x, every intensity is symmetric under phi -> -phi - 2a, and no s-polarized light is radiated at phi = -a. This holds for the tabulated tensors of every group with such a mirror.", "quantifier": "for all tensors with the symmetry (magnetic tensors axial), all angles and values; for every table entry", "why_tests_cant": "a symmetry of a function over all angles and parameter values", "anchors": ["shgpy/formgen.py:formgen", "shgpy/tensor_definitions.py:dipole", "shgpy/tensor_definitions.py:surface", "shgpy/tensor_definitions.py:quadrupole"]}
{"id": "C73", "title": "Centrosymmetric crystals radiate no electric-dipole harmonic", "statement": "For every group that contains the inversion, formgen of its dipole (or surface) tensor evaluates to zero at every angle, polarization and parameter value.", "quantifier": "for every group of the tables with inversion, all values", "why_tests_cant": "depends on 27 table entries per group and all values", "anchors": ["shgpy/formgen.py:formgen", "shgpy/tensor_definitions.py:dipole", "shgpy/tensor_definitions.py:surface"]}
{"id": "C74", "title": "Simulated data and simulated Fourier data belong to the same curve", "statement": "For formulas the lookup table covers and a dictionary with the other symbols: form_to_fdat gives the Fourier coefficients of the formula as a function of phi; form_to_dat with any number of points returns the same container as fdat_to_dat of form_to_fdat; when the formula is real and more than 32 points are taken, dat_to_fdat of the sampled data returns exactly form_to_fdat.", "quantifier": "for all covered formulas, dictionaries, numbers of points and interpolators exact at the nodes", "why_tests_cant": "an identity between two pipelines, over all formulas and values", "anchors": ["shgpy/core/data_handler.py:form_to_fdat", "shgpy/core/data_handler.py:form_to_dat", "shgpy/core/data_handler.py:fdat_to_dat", "shgpy/core/data_handler.py:dat_to_fdat"]}
{"id": "C75", "title": "The cost is zero at the parameters that generated the data", "statement": "Fourier data simulated from a Fourier formula with a dictionary of values has cost exactly zero at those values, no vector has a negative cost, and another vector has cost zero if and only if it simulates the same data.", "quantifier": "for all formulas, dictionaries, argument orders, vectors, chunked or not", "why_tests_cant": "a statement about all vectors; tests try a few", "anchors": ["shgpy/fformfit.py:gen_cost_func", "shgpy/core/data_handler.py:fform_to_fdat"]}
{"id": "C76", "title": "Data completed at normal incidence lie on the generated curves", "statement": "When the measurements handed to DataContainer with normal_to_oblique lie on the curves that formgen gives at normal incidence, every point of all four polarizations of the container lies on the curve of its polarization.", "quantifier": "for all crystals, parameter values, measured angles, units and combinations of measured polarizations", "why_tests_cant": "the sign of the rotation matters and holds only with the generator's geometry, for all crystals", "anchors": ["shgpy/core/data_handler.py:DataContainer", "shgpy/formgen.py:formgen"]}
{"id": "C77", "title": "Methods of a Fourier formula and of the formula it stands for agree", "statement": "After any sequence of subs, apply_phase_shift and apply_arbitrary_scale whose arguments do not mention phi and keep real symbols and shifts real, converting the Fourier formula gives a formula with the same values as the same sequence on the converted formula.", "quantifier": "for all Fourier formulas, sequences of calls and values", "why_tests_cant": "sequences of calls are unbounded", "anchors": ["shgpy/core/data_handler.py:fFormContainer", "shgpy/core/data_handler.py:FormContainer", "shgpy/core/data_handler.py:fform_to_form"]}
{"id": "C78", "title": "Tables of formulas label every formula correctly", "statement": "as_pandas of a Fourier formula or formula has, with either index, exactly one row per polarization (and frequency), in the order of the container, holding the formula of that polarization (and frequency); two containers of one order with equal tables hold equal formulas; an unknown index is refused.", "quantifier": "for all containers a program can build, all orders", "why_tests_cant": "labels and values are built separately and joined by position, for all orders and key sets", "anchors": ["shgpy/core/data_handler.py:fFormContainer.as_pandas", "shgpy/core/data_handler.py:FormContainer.as_pandas"]}
{"id": "C79", "title": "Rounding moves the coefficients by at most half a unit in the last digit", "statement": "generate_contracted_fourier_transforms with ndigits writes, for the same polarizations and frequencies, formulas in which each number moved by at most half of 10^-ndigits in its real and imaginary part; a formula whose numbers are short enough keeps its value; no symbol appears; the predicted intensity differs from the exact one by at most 10^-ndigits times the sum of the absolute values of the products of parameters.", "quantifier": "for all tensors, numbers of digits, parameter values and angles", "why_tests_cant": "an error bound over all values", "anchors": ["shgpy/fformgen.py:generate_contracted_fourier_transforms", "shgpy/fformgen.py:_round_expr"]}
{"id": "C80", "title": "Rounded intensities are still intensities", "statement": "The intensities predicted by formulas generated with ndigits are not negative.", "quantifier": "for all tensors, digits, values and angles (claim); refuted for a crystal with the single element yyy, two digits, both polarizers at S, phi = pi/2; proved down to minus the error bound of C79", "why_tests_cant": "needs a value where the exact intensity vanishes", "anchors": ["shgpy/fformgen.py:generate_contracted_fourier_transforms", "shgpy/fformgen.py:_round_expr"]}
{"id": "C81", "title": "The fit in Fourier space is the least-squares fit to the measured points", "statement": "For data of more than 2M points per polarization, the mean squared deviation of the formula from the (resampled) points equals the cost plus a constant that does not depend on the parameters: what the truncated transform of the data loses. So the cost ranks parameter vectors exactly as the points do.", "quantifier": "for all data containers, interpolations accepting them, formulas of any order and parameter values", "why_tests_cant": "a test compares single fits; that no parameter value is ranked differently is a statement about all of them", "anchors": ["shgpy/core/data_handler.py:dat_to_fdat", "shgpy/fformfit.py:gen_cost_func", "shgpy/fformfit.py:_make_energy_expr"]}
{"id": "C82", "title": "Shifting formula and data together does not change the cost", "statement": "Shifting a Fourier formula and Fourier data by the same angle leaves the cost unchanged at every parameter vector; shifting the data before the transform instead (by a multiple of the spacing) corresponds to the opposite sign for the formula.", "quantifier": "for all formulas, data, shift expressions with a real value and parameter values", "why_tests_cant": "sign conventions of three methods must agree for every frequency", "anchors": ["shgpy/core/data_handler.py:fFormContainer.apply_phase_shift", "shgpy/core/data_handler.py:fDataContainer.phase_shift_fdata", "shgpy/core/data_handler.py:DataContainer.phase_shift_data", "shgpy/fformfit.py:gen_cost_func"]}
{"id": "C83", "title": "Scaling formula and data together scales the cost by the square", "statement": "Multiplying a Fourier formula and Fourier data by the same nonnegative number multiplies the cost by its square at every parameter vector, so the best parameters stay the same.", "quantifier": "for all formulas, data, nonnegative factors and parameter values", "why_tests_cant": "universally quantified over parameter vectors", "anchors": ["shgpy/core/data_handler.py:fFormContainer.apply_arbitrary_scale", "shgpy/core/data_handler.py:fDataContainer.scale_fdata", "shgpy/fformfit.py:gen_cost_func"]}
{"id": "C84", "title": "The cost of merged containers is the sum of the costs", "statement": "Formulas and data merged with the same mapping (which keeps the keys of all containers apart) match each other, and their cost is the sum of the costs of the separate pairs: several data sets can be fitted at once.", "quantifier": "for all non-empty lists of matching formulas and data of order 16, all mappings without collisions and all parameter values", "why_tests_cant": "number of containers and mapping are unbounded", "anchors": ["shgpy/core/data_handler.py:merge_containers", "shgpy/fformfit.py:gen_cost_func"]}
{"id": "C85", "title": "Only the part symmetric in the two input fields can be observed", "statement": "Two sets of susceptibility tensors whose values agree after symmetrisation over the two input-field indices give the same intensity formula in every polarization combination: the simulated pattern cannot tell chi_ijk from chi_ikj.", "quantifier": "for all tensors of the right shapes accepted by formgen, all angles of incidence, all real parameter values, all azimuths", "why_tests_cant": "tensors, parameters and angles are continuous", "anchors": ["shgpy/formgen.py:formgen"]}
{"id": "C86", "title": "Reversing the sign of all tensors does not change the intensities", "statement": "Two sets of tensors whose values are opposite give the same formulas.", "quantifier": "for all tensors accepted by formgen and all real parameter values", "why_tests_cant": "tensors and parameters are continuous", "anchors": ["shgpy/formgen.py:formgen"]}
{"id": "C87", "title": "The cost of a fit cannot see a common phase of the tensors, nor the common sign of the parameters", "statement": "For the Fourier formulas generated from a dipole and a quadrupole tensor, saved and loaded: two parameter vectors at which the tensors differ by a common unit complex factor have the same cost; for tensors of the tables, made real or complex, negating the whole parameter vector leaves the cost unchanged. So minimisers come at least in pairs.", "quantifier": "for all angles of incidence, tables, data matching the formulas, argument lists and parameter vectors", "why_tests_cant": "quantifies over data and parameter vectors of any length", "anchors": ["shgpy/fformgen.py:generate_contracted_fourier_transforms", "shgpy/fformfit.py:gen_cost_func", "shgpy/tensor_definitions.py:dipole"]}
{"id": "C88", "title": "Tensors of the tables must be made real or complex before generating formulas", "statement": "formgen and the Fourier generator raise ValueError on a table entry with at least one parameter; entries without parameters are accepted; after make_tensor_real or make_tensor_complex every entry is accepted, alone or in combination.", "quantifier": "for all names in the tables, all combinations of tensors, all angles", "why_tests_cant": "covers every table entry with every accompanying tensor", "anchors": ["shgpy/formgen.py:formgen", "shgpy/fformgen.py:generate_contracted_fourier_transforms", "shgpy/tensor_definitions.py:dipole"]}
{"id": "C89", "title": "Fourier transform of measured data is linear", "statement": "For an interpolation linear in the values, scaling the data by a non-negative factor scales every Fourier coefficient; adding or subtracting two data sets taken at the same angles adds or subtracts their coefficients; subtracting the minimum changes only the coefficients whose index is a multiple of the number of points (at the usual sizes: the constant one), by exactly the minimum, if the interpolation also reproduces constants and depends on the angles alone.", "quantifier": "for all containers reachable by any history of operations, all linear interpolations, all factors, all orders M", "why_tests_cant": "quantifies over every interpolation kind and every data set; a test compares floats on one data set", "anchors": ["shgpy/core/data_handler.py:dat_to_fdat", "shgpy/core/data_handler.py:DataContainer.scale_data", "shgpy/core/data_handler.py:dat_add", "shgpy/core/data_handler.py:dat_subtract", "shgpy/core/data_handler.py:DataContainer.subtract_min"]}
{"id": "C90", "title": "Filters replace values and nothing else", "statement": "Applying a filter keeps polarizations, angles, scale, offset and phase shift, and replaces the values of each polarization by the result of the filter on them, in the order in which they are listed; if the filter fails on some polarization, those before it are already filtered and the rest is untouched. A filter acting on each value alone commutes with shifting the angles; one that depends on positions does not in general, since shifting re-sorts the points.", "quantifier": "for all containers, all filters including failing ones, all shifts", "why_tests_cant": "quantifies over arbitrary functions given by the user, including ones that fail half-way", "anchors": ["shgpy/core/data_handler.py:DataContainer.filter"]}
{"id": "C91", "title": "At a global minimum of the cost the generated gradient is zero", "statement": "If a parameter vector minimises the generated cost function, all generated gradient components are zero there; in particular at parameters that reproduce the data, and at the parameters from which the data were generated, cost and gradient both vanish.", "quantifier": "for all Fourier formulas, all data, all argument lists, all parameter vectors", "why_tests_cant": "relates separately generated source files over all real parameter vectors", "anchors": ["shgpy/fformfit.py:gen_cost_func", "shgpy/fformfit.py:_make_energy_expr", "shgpy/fformfit.py:_make_denergy_expr"]}
{"id": "C92", "title": "The cost does not depend on the order of the polarizations nor on surplus data", "statement": "Two Fourier formulas with the same entries, listed in different orders, and two data containers that agree on these polarizations (one of which may hold more of them) give generated cost functions with equal values, whether or not the source is split into pieces.", "quantifier": "for all Fourier formulas and data containers, all orders of insertion, all arguments", "why_tests_cant": "quantifies over all insertion orders and surplus entries", "anchors": ["shgpy/fformfit.py:gen_cost_func", "shgpy/fformfit.py:_make_energy_expr", "shgpy/fformfit.py:_make_energy_expr_list"]}
{"id": "C93", "title": "Simplifying or expanding formulas does not change what they describe", "statement": "simplify and expand keep the polarizations and the value of every formula at all parameters, add no symbols, and leave sampled data and Fourier data unchanged.", "quantifier": "for all formulas, all simplifications that keep values, all parameter values", "why_tests_cant": "quantifies over all value-preserving rewritings, including the double-angle ones a simplifier prefers", "anchors": ["shgpy/core/data_handler.py:FormContainer.simplify", "shgpy/core/data_handler.py:FormContainer.expand", "shgpy/core/data_handler.py:form_to_fform", "shgpy/core/data_handler.py:form_to_dat", "shgpy/core/_fourier_transform.py:_fourier_transform"]}
{"id": "C94", "title": "A formula has the parameters of the tensors and no others", "statement": "The formulas of formgen contain only the parameters of the tensors given, the sample angle, and what the angle of incidence is written with. The Fourier formulas of fformgen contain only the parameters of the two tensors (and the angle of incidence if it is left symbolic), whatever the number of digits kept. For table entries made real these are exactly the real counterparts map_to_real of the symbols of the tables, so a guess for each of those is enough to fit and the answer names no other parameter.", "quantifier": "for all tensors, table entries, angles of incidence, digits, guesses and optimisers", "why_tests_cant": "no test can show that a symbol never occurs; the auxiliary symbols of the generation (beam components) are replaced at the end of a long computation", "anchors": ["shgpy/formgen.py:formgen", "shgpy/fformgen.py:generate_uncontracted_fourier_transforms", "shgpy/fformgen.py:generate_contracted_fourier_transforms", "shgpy/core/utilities.py:map_to_real", "shgpy/core/utilities.py:make_tensor_real", "shgpy/core/utilities.py:make_tensor_complex", "shgpy/fformfit.py:least_squares_fit"]}
{"id": "C95", "title": "The symbolic rotation matrix is the numeric one at every angle", "statement": "rotation_matrix3symb gives formulas whose value at any angle is the matrix rotation_matrix3 gives there, that is, the right-handed rotation about the axis; the axis is left normalised in the same way, and no symbol but those of the angle occurs.", "quantifier": "for all axes, angle expressions and values of the angle", "why_tests_cant": "quantifies over all angles and axes", "anchors": ["shgpy/core/utilities.py:rotation_matrix3symb", "shgpy/core/utilities.py:rotation_matrix3"]}
{"id": "C96", "title": "Turning the data, with the rounding of double precision", "statement": "With the arithmetic that is really carried out (every operation rounded to the nearest double), a phase shift turns each point by the angle given and every stored angle is in [0, 2 pi), in increasing order. False at the end of the circle: a small negative angle is stored as 2 pi, so a point given at 15 degrees and shifted by -10 and -5 degrees ends up last and not first, and a further shift by zero moves it. What holds: any history of shifts turns the data by the sum of the angles up to an explicit bound of a few 1e-15 per shift, the angles stay sorted doubles between 0 and 2 pi included, non-negative angles are reduced exactly, and data given and read in degrees agree up to an explicit bound.", "quantifier": "for all lists of points with double angles, all sequences of shifts, all angles", "why_tests_cant": "rounding of particular doubles decides it; bounds over all doubles and all histories", "anchors": ["shgpy/core/data_handler.py:DataContainer.phase_shift_data", "shgpy/core/data_handler.py:DataContainer.get_items"]}
{"id": "C97", "title": "Repeated directions, with the rounding of double precision", "statement": "A direction that is given twice, as d and as d + 360 degrees, is stored once; directions that differ are all stored. The first half is false in double precision: 1 and 361 degrees are both stored, less than 1e-15 apart. What holds: directions at least 1e-10 degrees apart are never merged, a full circle from 0 to 360 degrees loses exactly its last point, and of angles already in [0, 2 pi) the first at each angle is kept.", "quantifier": "for all lists of points", "why_tests_cant": "rounding of particular doubles decides it; all sets of directions", "anchors": ["shgpy/core/data_handler.py:DataContainer"]}
{"id": "C98", "title": "Normalizing and scaling, with the rounding of double precision", "statement": "After normalize_data(x) the largest value of the data is x. False in double precision: data with the maximum 49 normalized to 1 has the maximum 1 - 2^-53. What holds: the maximum is within 3 * 2^-53 of x, scaling never changes the order of the values, and after n scalings every value and the recorded scale are within a relative error of 2n * 2^-53 of the exact ones, so the recorded scale reconstructs the data to that accuracy.", "quantifier": "for all containers, all factors and all numbers of scalings up to 2^50, away from numbers below 1e-300", "why_tests_cant": "accumulated rounding over histories of any length; a test fixes a tolerance and a few numbers", "anchors": ["shgpy/core/data_handler.py:DataContainer.normalize_data", "shgpy/core/data_handler.py:DataContainer.scale_data", "shgpy/core/data_handler.py:DataContainer.get_scale"]}
{"id": "C99", "title": "Subtracting the minimum is exact where it matters", "statement": "In double precision, after subtract_min the smallest value is exactly 0 and no value is negative, every value is the true difference up to half a unit in the last place (with no loss by underflow), the first recorded offset is exactly minus the minimum, and calling it again changes nothing.", "quantifier": "for all containers with doubles as values", "why_tests_cant": "all sets of doubles, including subnormal ones", "anchors": ["shgpy/core/data_handler.py:DataContainer.subtract_min", "shgpy/core/data_handler.py:DataContainer.get_offset"]}
{"id": "C100", "title": "Adding and taking back, with the rounding of double precision", "statement": "dat_subtract(dat_add(a, b), b) returns a. False in double precision: 1 added to 2^53 is lost. What holds: for values up to B in size the result is within 6 * 2^-53 * B of a, and for counts whose sums stay below 2^52 addition is exact and a comes back exactly.", "quantifier": "for all pairs of containers that can be combined", "why_tests_cant": "rounding depends on the particular pairs of numbers", "anchors": ["shgpy/core/data_handler.py:dat_add", "shgpy/core/data_handler.py:dat_subtract"]}
{"id": "C101", "title": "The Fourier transform of data is kept in single precision", "statement": "dat_to_fdat keeps the precision of the data. False: the coefficients are stored in complex64, so measurements that differ by one part in 10^9 at every angle give the same coefficients, and values beyond 3.4e38 do not survive. What holds: both parts of every stored coefficient are single-precision numbers within a relative error of 2^-24 of the computed ones, and the curve drawn from them is within (2M+1) * 2^-23 of the largest coefficient of the exact curve at every angle.", "quantifier": "for all data, interpolations, numbers of frequencies and errors of the double-precision sum", "why_tests_cant": "tests compare with tolerances wider than single precision, and on a few data sets", "anchors": ["shgpy/core/data_handler.py:dat_to_fdat", "shgpy/core/data_handler.py:fdat_to_dat"]}
{"id": "C102", "title": "Values may be substituted in the tensors or in the formulas", "statement": "Giving parameters values, or expressing them by other parameters, in the tensors before formgen or before fformgen gives the same intensities and Fourier coefficients as substituting in the generated formulas afterwards; generating succeeds for the substituted tensors whenever it does for the original ones.", "quantifier": "for all tensors, lists of substitutions made in turn that keep the reality declarations and do not touch the azimuth, and values of the remaining parameters; angle of incidence symbolic or a number", "why_tests_cant": "A test substitutes a few numbers in one tensor; substitutions that introduce a symbol replaced later in the same list, and the path through saved files, are seldom exercised.", "anchors": ["shgpy/formgen.py:formgen", "shgpy/fformgen.py:generate_contracted_fourier_transforms", "shgpy/core/data_handler.py:FormContainer.subs", "shgpy/core/data_handler.py:fFormContainer.subs"]}
{"id": "C103", "title": "Light from the other side is a half turn of the sample", "statement": "Reversing the sign of the angle of incidence gives the formulas of the sample turned by half a turn about its normal. So at normal incidence every formula repeats after half a turn and its odd Fourier components vanish, whatever the tensors.", "quantifier": "for all tensors, angles of incidence, polarizations, azimuths and parameter values", "why_tests_cant": "A test compares numbers for one crystal; a sign error in the plane of incidence keeps all four patterns plausible.", "anchors": ["shgpy/formgen.py:formgen"]}
{"id": "C104", "title": "Each polarization can be analysed alone", "statement": "Converting or editing a container that holds some of the polarizations of another one succeeds when it does for the whole, and gives the corresponding part of the result: every conversion between data, Fourier data, formulas and Fourier formulas, scaling, phase shifts and filters of data (normalizing and subtracting the minimum look at all polarizations by design). False for form_to_dat: a formula that does not depend on the azimuth is accepted together with one that does and refused alone; proved when the part still varies.", "quantifier": "for all containers, subsets of their polarizations, orders, numbers of points and parameters", "why_tests_cant": "tests use fixed sets of polarizations; the failure needs a polarization without azimuthal dependence on its own", "anchors": ["shgpy/core/data_handler.py:dat_to_fdat", "shgpy/core/data_handler.py:fdat_to_dat", "shgpy/core/data_handler.py:form_to_fform", "shgpy/core/data_handler.py:fform_to_form", "shgpy/core/data_handler.py:fform_to_fdat", "shgpy/core/data_handler.py:fform_to_dat", "shgpy/core/data_handler.py:form_to_fdat", "shgpy/core/data_handler.py:form_to_dat", "shgpy/core/data_handler.py:DataContainer"]}
{"id": "C105", "title": "Loading data files gives what the files hold", "statement": "read_csv succeeds exactly when every row starts with two numbers and returns them in order; the first other row decides between IndexError (blank row or a single number) and ValueError. load_data gives one polarization per file name, in order, holding the points of that file with angles converted and reduced into one turn, exactly those points when they are in order already; it succeeds exactly when the units are known and every file is readable and not empty, and otherwise the first unreadable file decides the exception. load_data_and_dark_subtract gives signal minus background at each angle, each file set in its own unit, and refuses different polarizations without reading any file.", "quantifier": "for all file contents, file names, units and meanings of number texts", "why_tests_cant": "tests load a few fixed files; columns exchanged, the wrong unit for the dark files or the opposite sign of the difference need not show in them", "anchors": ["shgpy/core/data_handler.py:read_csv", "shgpy/core/data_handler.py:load_data", "shgpy/core/data_handler.py:load_data_and_dark_subtract"]}
{"id": "C106", "title": "The mean signal does not depend on where the turn starts", "statement": "Shifting equally spaced data by any angle before dat_to_fdat leaves the zeroth Fourier coefficient (the mean signal) unchanged. Refuted: between the last measurement and the first one of the next turn the samples are extrapolated, not interpolated. With linear interpolation a shift by a less than the spacing changes the mean by exactly a/(2 pi) times the second difference of the data across the seam; with the default cubic kind it changes too. What dat_to_fdat transforms in the linear case is the polygon through the measurements of one turn, its first and last side prolonged.", "quantifier": "for all data sets and shifts (claim); refuted for linear interpolation and for every interpolator that puts a cubic through four points; the exact change for all equally spaced data and all shifts below the spacing", "why_tests_cant": "a test on smooth or symmetric data sees a small or no change, and data that start at angle 0 never reach the extrapolated part", "anchors": ["shgpy/core/data_handler.py:dat_to_fdat", "shgpy/core/data_handler.py:DataContainer.phase_shift_data"]}
{"id": "C107", "title": "A failing gen_model_func leaves the saved model alone", "statement": "gen_model_func with a folder replaces the content of that folder by exactly the files of the new model and touches no other folder; without a folder it touches nothing; when it raises, the folder still holds the model saved before, or at least nothing that loads as a model. The last part is refuted: the folder is emptied before the formula is looked at, so a call with an unsuitable formula destroys the saved model, and a call that fails half way leaves a folder that loads without an error as a model whose missing terms are zero. Proved instead: what the folder holds afterwards never depends on what it held before, and every file in it is named after a polarization and frequency of the formula.", "quantifier": "for all formulas, sizes, folders and disks (claim); the part about failures is refuted", "why_tests_cant": "tests generate into fresh folders and do not provoke failures in the middle", "anchors": ["shgpy/fformfit.py:gen_model_func", "shgpy/fformfit.py:_fixed_autowrap_model", "shgpy/fformfit.py:load_model_func"]}
{"id": "C108", "title": "A saved model loads whatever the polarizations are called", "statement": "A model saved by gen_model_func and loaded by load_model_func from the same folder has the same values for every key of the formula, also when a key holds characters that have a meaning in file name patterns. Refuted: the key is put into a glob pattern unescaped, so a key with brackets finds none of its files and loads without an error as a model that is identically zero, and a key with a star also adds up the terms of other keys. Proved: it holds for keys without star, question mark and opening bracket (and none of which extends another by an underscore), in particular for the four polarizations PP, PS, SP, SS; the pattern of such a key finds exactly the names with its beginning and the ending .so.", "quantifier": "for all formulas, chunk sizes, directory orders and file names (claim); refuted for keys with pattern characters", "why_tests_cant": "tests use the four polarizations only", "anchors": ["shgpy/fformfit.py:load_model_func", "shgpy/fformfit.py:_load_func_dict"]}
{"id": "C109", "title": "Real signals have Hermitian Fourier data, and keep them through every operation", "statement": "The Fourier coefficients in a container belong to a function that is real everywhere exactly when the coefficient at -m is the conjugate of the one at m. This holds for every container made by dat_to_fdat, for the evaluation of a Fourier formula whose function is real at the chosen parameters, for form_to_fform of a formula that is real for real phi, and for the rows of the Fourier generator at all admissible values of the parameters; and it is kept by scaling, normalising and rotating in any order, including calls that fail. For such a container fdat_to_dat discards nothing when it takes real parts, and the least squares cost counts every positive frequency exactly twice: it equals the term at zero plus twice the sum over 1..M.", "quantifier": "for all containers, histories, formulas, parameters, interpolators and frequencies", "why_tests_cant": "tests compare a few containers and never look at the imaginary part of a series", "anchors": ["shgpy/core/data_handler.py:dat_to_fdat", "shgpy/core/data_handler.py:fdat_to_dat", "shgpy/core/data_handler.py:fDataContainer", "shgpy/fformfit.py:gen_cost_func"]}
{"id": "C110", "title": "For intensities the largest coefficient is the mean, so normalize_fdata normalises the mean", "statement": "When the signal is real and nowhere negative, its Fourier coefficient at frequency zero is real and no other coefficient is larger in magnitude; for transformed nonnegative equally spaced data it is the mean of the measured values, whatever the interpolation does in between. Every operation keeps this. Then get_maxval returns the largest mean over the polarizations, and normalize_fdata(x) makes that mean x and leaves all others between 0 and x. The rows of the Fourier generator are of this kind. For signals with negative values this is false: after normalising cos(phi) the maximum is 1 and the mean is still 0.", "quantifier": "for all containers, histories, data of any length, orders and interpolators exact at their nodes", "why_tests_cant": "tests cannot compare all coefficients of all nonnegative functions", "anchors": ["shgpy/core/data_handler.py:fDataContainer", "shgpy/core/data_handler.py:dat_to_fdat"]}
{"id": "C111", "title": "A model can be generated for every formula a cost can be generated for", "statement": "gen_model_func succeeds for every formula with symbolic entries and positive chunk size. Refuted for parameters not declared real: sympy leaves their real and imaginary parts unevaluated, the generated C source calls functions that do not exist, and OSError is raised after the folder of a model saved before was emptied, while gen_cost_func accepts the same formula. Proved: the call succeeds exactly when no real or imaginary part is left in the expressions of the model, and raises OSError otherwise; for formulas made of numbers, parameters declared real, sums, products, powers, conjugates and cosines and sines of real expressions there is nothing in the way: an evaluation rule exists that takes all parts, and then the model returns the coefficients.", "quantifier": "for all formulas and positive chunk sizes (claim); refuted by a formula with one parameter not declared real", "why_tests_cant": "tests use parameters made by the library, which are real", "anchors": ["shgpy/fformfit.py:gen_model_func", "shgpy/fformfit.py:_make_model_expr", "shgpy/fformfit.py:_fixed_autowrap_model"]}
{"id": "C112", "title": "Malformed Fourier data and formulas are rejected, well formed ones are kept as given", "statement": "fDataContainer accepts exactly the iterables whose keys are text and whose values are one-dimensional complex arrays with 2M+1 entries, fFormContainer those with one-dimensional object arrays of 2M+1 numbers and expressions, FormContainer those with expressions; all others raise ValueError (real arrays and arrays of another length included). An accepted container has the keys in the order of their first occurrence, for each key the last value given for it, entry by entry, the order M, scale 1 and phase shift 0.", "quantifier": "for every iterable of key/value pairs and every order", "why_tests_cant": "the input space is unbounded and repeated keys, wrong lengths or real arrays are easily forgotten in tests", "anchors": ["shgpy/core/data_handler.py:fDataContainer", "shgpy/core/data_handler.py:fFormContainer", "shgpy/core/data_handler.py:FormContainer"]}
{"id": "C113", "title": "A crystal of higher symmetry is a special case of a crystal of lower symmetry", "statement": "When every symmetry operation of one tabulated point group is an operation of another, in the orientations of the tables, then every tensor of the more symmetric entry is a tensor of the less symmetric one, for exactly one choice of its parameters; the isotropic quadrupole tensor is one of every crystal. So a fit with the lower symmetry can always return the higher one. The orientation matters: the dipole tensor of D_3h is no special case of that of D_3, although D_3h contains D_3 with another choice of its twofold axes.", "quantifier": "for every pair of entries of the dipole and of the quadrupole table and all values of the parameters", "why_tests_cant": "all values of the parameters of all pairs of 32 groups; the tables are written by hand", "anchors": ["shgpy/tensor_definitions.py:dipole", "shgpy/tensor_definitions.py:quadrupole"]}
{"id": "C114", "title": "Permutation symmetry is seen in every orientation", "statement": "A tensor that is symmetric under the exchange of two neighbouring indices, or under all permutations of its indices, still is after transform, for any matrix. So a tensor may be particularized before it is rotated to the orientation of the sample.", "quantifier": "for tensors of any rank and dimension over any commutative ring, and every matrix", "why_tests_cant": "ranks, dimensions and matrices are unbounded", "anchors": ["shgpy/core/utilities.py:particularize", "shgpy/core/utilities.py:transform"]}
{"id": "C115", "title": "Fourier transformation does not amplify noise", "statement": "If two data sets have the same angles and their values differ by at most eps, no Fourier coefficient differs by more than eps, and the squared differences of all of them add up to no more than the mean square of the noise. Refuted for unequal angles: with two neighbouring measurements and linear interpolation an error of 1 changes the mean by any amount. Proved for equally spaced angles and any interpolation exact at its nodes; the cost of the true parameters is then at most eps squared per polarization.", "quantifier": "for all data, orders and noise (claim); proved for equally spaced angles; refuted for unequally spaced ones", "why_tests_cant": "noise is arbitrary and the amplification is unbounded only in the limit of close angles", "anchors": ["shgpy/core/data_handler.py:dat_to_fdat", "shgpy/fformfit.py:gen_cost_func"]}
{"id": "C116", "title": "A higher Fourier order adds coefficients and changes none", "statement": "If data or formulas can be transformed to order M2, they can be transformed to every lower order M1, and the coefficients of frequencies up to M1 are the same; whether data can be transformed does not depend on the order at all. So the cost of any values of the parameters can only grow with the order.", "quantifier": "for all data, interpolators, formulas and orders", "why_tests_cant": "orders and formulas are unbounded", "anchors": ["shgpy/core/data_handler.py:dat_to_fdat", "shgpy/core/data_handler.py:form_to_fform", "shgpy/fformfit.py:gen_cost_func"]}
{"id": "C117", "title": "A crystal of lower symmetry fits at least as well", "statement": "Let every symmetry operation of one tabulated crystal be an operation of another, for the dipole and for the quadrupole tensor. Generate the Fourier formulas of both for the same geometry and fit both to the same data: every value of the cost of the more symmetric crystal is also a value of the cost of the less symmetric one, at some values of its parameters. So its best fit is at least as good, and a better fit by the more symmetric crystal shows that a fit has not converged. This holds with real parameters for both crystals, and with complex parameters for the less symmetric one.", "quantifier": "for every pair of crystals of the tables with nested symmetry, all data, angles of incidence, argument lists and ways of generating the cost functions", "why_tests_cant": "all data and all values of the parameters; optimizers find local minima only", "anchors": ["shgpy/tensor_definitions.py:dipole", "shgpy/tensor_definitions.py:quadrupole", "shgpy/fformgen.py:generate_contracted_fourier_transforms", "shgpy/fformfit.py:gen_cost_func"]}
{"id": "C118", "title": "A turned crystal fits turned data equally well", "statement": "Transform both tensors by a rotation by the angle a about the surface normal and generate the Fourier formula: its coefficient of order m is that of the unturned crystal times exp(i m a), and its cost for data shifted by a with phase_shift_fdata equals the cost of the unturned crystal for the unshifted data, at the same values of the parameters. With the angle as a further parameter of the rotation matrix the orientation can be fitted: data shifted by any angle are fitted as well as the data themselves.", "quantifier": "for all tensors with real parameters, angles of incidence, rotation matrices (numeric or with real symbols), data and values of the parameters", "why_tests_cant": "all angles, data and values; the sign of the shift is easily wrong", "anchors": ["shgpy/core/utilities.py:transform", "shgpy/fformgen.py:generate_contracted_fourier_transforms", "shgpy/core/data_handler.py:fDataContainer.phase_shift_fdata", "shgpy/fformfit.py:gen_cost_func"]}
{"id": "C119", "title": "Signal in orders a crystal cannot produce cannot be fitted", "statement": "The Fourier formula of a crystal with an n-fold axis along z has, at all values of its parameters, no coefficient of an order that is not a multiple of n, and none above 8. So no value of its cost function is below the power of the data in these orders, which can be computed before any fit.", "quantifier": "for all crystals of the tables with such an axis, all tensors with this symmetry, all data and values of the parameters", "why_tests_cant": "all data and all values of the parameters; optimizers only sample", "anchors": ["shgpy/tensor_definitions.py:dipole", "shgpy/tensor_definitions.py:quadrupole", "shgpy/fformgen.py:generate_contracted_fourier_transforms", "shgpy/fformfit.py:gen_cost_func"]}
{"id": "C120", "title": "Fixing or tying parameters restricts the fit and does nothing else", "statement": "Substituting numbers for some parameters of a Fourier formula removes them from its free symbols, and the cost function of the result equals the cost function of the original with these parameters held at the numbers. Substituting expressions in the parameters (a = 2*b) gives a cost function all of whose values are values of the original one, so the constrained fit is never the better one.", "quantifier": "for every formula, data set, list of substitutions, order of the arguments and values of the remaining parameters", "why_tests_cant": "all formulas, substitutions and parameter values; substitutions act one after the other", "anchors": ["shgpy/core/data_handler.py:fFormContainer.subs", "shgpy/fformfit.py:gen_cost_func"]}
{"id": "C121", "title": "A scale variable adds nothing to a crystal from the tables", "statement": "For crystals of the tables, applying apply_arbitrary_scale with a symbol that does not occur in the formula leaves the attainable costs as they are: a cost at a scale that is not negative is a cost without scale (the parameters times the square root of the scale), and a cost without scale is a cost at the scale 1. The scale and the size of the parameters cannot be told apart by a fit.", "quantifier": "for all crystals of the tables made real or complex, angles of incidence, data, scale symbols and values of the parameters", "why_tests_cant": "all data and parameter values; a degeneracy of the fit shows in no single run", "anchors": ["shgpy/core/data_handler.py:fFormContainer.apply_arbitrary_scale", "shgpy/fformgen.py:generate_contracted_fourier_transforms", "shgpy/fformfit.py:gen_cost_func", "shgpy/tensor_definitions.py:dipole", "shgpy/tensor_definitions.py:quadrupole"]}
{"id": "C122", "title": "Several angles of incidence side by side", "statement": "Uncontracted transforms generated under different filename prefixes do not disturb each other, or any other file: in whatever order they are generated, contracting under a prefix gives what was generated last under this prefix, as if nothing else had been in the directory. So any number of angles of incidence can be generated first and each contracted later to the intensity at its angle.", "quantifier": "for every sequence of generations (numeric or symbolic angle, prefixes, orders), directory content and tensors", "why_tests_cant": "all sequences and prefixes, including prefixes that begin with one another", "anchors": ["shgpy/fformgen.py:generate_uncontracted_fourier_transforms", "shgpy/fformgen.py:generate_uncontracted_fourier_transforms_symb", "shgpy/fformgen.py:generate_contracted_fourier_transforms"]}
{"id": "C123", "title": "The reported phase, scale and offset follow the history", "statement": "After any sequence of calls, failed ones included, the phase shift a container reports is the one it had before plus all shifts asked for in known units, degrees converted; in degrees it is the same number times 180/pi. A function given to filter changes intensities only: scale, offset, phase, keys and angles stay, also when the function fails half way. For Fourier containers the same holds, and where copy has wrapped the shift in a tuple the number inside still follows the calls that succeed.", "quantifier": "for every container, history of calls, angle, unit string and user function", "why_tests_cant": "all histories and user functions; a test sees a few calls", "anchors": ["shgpy/core/data_handler.py:DataContainer.get_phase_shift", "shgpy/core/data_handler.py:DataContainer.phase_shift_data", "shgpy/core/data_handler.py:DataContainer.filter", "shgpy/core/data_handler.py:fDataContainer.get_phase_shift", "shgpy/core/data_handler.py:fDataContainer.phase_shift_fdata"]}
{"id": "C124", "title": "Options that a fit sets itself are refused", "statement": "When the options handed on to the optimiser contain one that the fit already passes (x0, the function, bounds where bounds are given, niter, stepsize), the fit raises TypeError and never runs the optimiser with one of the two values chosen silently.", "quantifier": "for every formula, data set, guess, bounds, options and optimiser", "why_tests_cant": "all option dictionaries and optimisers", "anchors": ["shgpy/fformfit.py:least_squares_fit", "shgpy/fformfit.py:least_squares_fit_with_bounds", "shgpy/fformfit.py:basinhopping_fit", "shgpy/fformfit.py:basinhopping_fit_with_bounds"]}
{"id": "C125", "title": "Spelling of the polarization names", "statement": "With normal_to_oblique, only the first two letters of a key count, and their case does not: inputs whose keys spell the same combinations give equal containers. Input with a key that does not begin with two letters among P, p, S, s is refused.", "quantifier": "for all inputs, units and keys", "why_tests_cant": "all strings as keys", "anchors": ["shgpy/core/data_handler.py:DataContainer.__init__", "shgpy/core/data_handler.py:DataContainer._coerce_to_oblique_incidence"]}
{"id": "C126", "title": "Fitting with a rounded formula", "statement": "A file written with ndigits loads as the formula of the file written without, every entry rounded, for a numeric and for a symbolic angle of incidence. At any parameter values the square roots of the two costs differ by at most one unit of the last digit times the sum of the sizes of the products in the formula, and not at all when every number is short enough; so the best parameters of the rounded formula are almost the best of the exact one.", "quantifier": "for every tensor pair, number of digits, formula, data set and parameter values", "why_tests_cant": "all formulas, digits and parameter values", "anchors": ["shgpy/fformgen.py:generate_contracted_fourier_transforms", "shgpy/fformfit.py:gen_cost_func", "shgpy/fformfit.py:least_squares_fit"]}
{"id": "C127", "title": "Loading a saved cost function gives what was saved last", "statement": "After a cost function is saved under a name, loading that name, or fitting with it, uses the function just saved. (False in a process that loaded the name before: the loader returns the library opened then, so a fit to new data is silently a fit to the old data; it stays so until the process ends. True for a name not loaded before in the process.)", "quantifier": "for every session of generating, saving, loading and calling, every formula, data set, name and optimiser", "why_tests_cant": "all sequences of saves and loads in one process; a test loads each file once", "anchors": ["shgpy/fformfit.py:load_func", "shgpy/fformfit.py:gen_cost_func", "shgpy/fformfit.py:least_squares_fit"]}
{"id": "C128", "title": "A cost function can be loaded under the name it was saved under", "statement": "Whatever path-like name is given as save_filename can be given to load_func or as load_cost_func_filename. (False for a str without a slash, and for a Path without one when multiprocessing is True: the file exists and loading raises OSError. True for Path objects and names with a slash: the next process loads the function, and the fit with it is the fit with a fresh one.)", "quantifier": "for every session, name, formula, data set and optimiser", "why_tests_cant": "all names and sessions; tests use one absolute name", "anchors": ["shgpy/fformfit.py:load_func", "shgpy/fformfit.py:gen_cost_func", "shgpy/fformfit.py:least_squares_fit"]}
{"id": "C129", "title": "A mirror plane fixes the phases of the Fourier coefficients", "statement": "If both tensors are invariant under a mirror plane through z at the angle a, every coefficient of the generated Fourier formula times exp(-i m a) is real, whatever the parameters; the part of the data that is odd about the plane cannot be fitted, so the cost is never below its power. The crystals of the tables with such a plane are covered, with real and with complex parameters.", "quantifier": "for every tensor pair or table entry with a mirror plane, angle of incidence, data set and parameter values", "why_tests_cant": "all data and parameter values; a fit that seems poor cannot show that no parameters fit", "anchors": ["shgpy/fformgen.py:generate_contracted_fourier_transforms", "shgpy/fformfit.py:gen_cost_func", "shgpy/tensor_definitions.py:dipole", "shgpy/tensor_definitions.py:quadrupole"]}
{"id": "C130", "title": "A saved model loads as the model that was saved", "statement": "A model generated into a folder and then loaded from it has the values of the generated model, for any parameters, polarization and frequency, whatever the folder held before. REFUTED within one process: once a model was loaded from the folder, a model saved there later under the same file names is not what loading gives; the old functions come back without a warning. It holds if nothing was loaded from the folder (or from one inside or around it) in this process, and for the next process.", "quantifier": "for every formula, chunk size, contents of the disk, and every sequence of generating and loading models before", "why_tests_cant": "all histories of a session; a test that saves and loads once per process passes", "anchors": ["shgpy/fformfit.py:gen_model_func", "shgpy/fformfit.py:load_model_func"]}
{"id": "C131", "title": "Missing values are left out of the extremes and leave the measurements alone", "statement": "Values that are nan (a data file may contain the text nan) are ignored by get_maxval and get_minval, and normalize_data and subtract_min act on the remaining values as if the missing ones were not there. REFUTED: a polarization whose first value is missing is left out as a whole; if this is the case for all of them, normalize_data returns without an error and sets every measurement to zero, and subtract_min sets it to minus infinity. It holds when every polarization begins with a number. With IEEE arithmetic the outcome for data with maximum zero is also settled: no exception, every zero becomes nan.", "quantifier": "for every container of doubles, nan, infinities and signed zeros included", "why_tests_cant": "the outcome depends on the position of the missing value; all positions and values are covered", "anchors": ["shgpy/core/data_handler.py:DataContainer.get_maxval", "shgpy/core/data_handler.py:DataContainer.get_minval", "shgpy/core/data_handler.py:DataContainer.normalize_data", "shgpy/core/data_handler.py:DataContainer.subtract_min", "shgpy/core/data_handler.py:DataContainer.scale_data", "shgpy/core/data_handler.py:read_csv"]}
{"id": "C132", "title": "At normal incidence SS and SP carry no information beyond PP and PS", "statement": "With an angle of incidence 0 every row of the generated Fourier formulas is the row of the crossed polarizations seen a quarter of a turn further (coefficient m multiplied by exp(i m pi/2)), and the odd orders vanish. Therefore no parameter values have a cost below half the power of the difference between PP and the turned SS data (plus the same for PS and SP), nor below the power in odd orders; and for data whose SS and SP are copies, as normal_to_oblique makes them, the cost is for all parameters exactly twice the cost of PP and PS alone, so copying does not change which parameters fit best.", "quantifier": "for all tensors of the required shapes, all data and all parameter values", "why_tests_cant": "a bound below all values of a cost function; tests evaluate it at a few points", "anchors": ["shgpy/fformgen.py:generate_uncontracted_fourier_transforms", "shgpy/fformgen.py:generate_contracted_fourier_transforms", "shgpy/fformfit.py:gen_cost_func", "shgpy/core/data_handler.py:DataContainer._coerce_to_oblique_incidence"]}
{"id": "C133", "title": "Cost and model functions depend on the numbers in the array only", "statement": "Called with a numpy array, a compiled cost function or model function returns the value for the numbers the array shows, whatever the type of the array and wherever its elements lie in memory. REFUTED for cost functions: they read doubles one after the other from the first element on, so that a view (such as a column of an array of points), an array of integers and an array that is too short are evaluated at other numbers, without an error. It holds for contiguous arrays of doubles, after astype(float), and for model functions, which convert the array.", "quantifier": "for all formulas, data, arrays (buffer, type, position, stride, length) and parameter values", "why_tests_cant": "the failure is silent and depends on what lies in memory; every layout is covered", "anchors": ["shgpy/fformfit.py:_load_func", "shgpy/fformfit.py:load_func", "shgpy/fformfit.py:gen_cost_func", "shgpy/fformfit.py:gen_model_func", "shgpy/fformfit.py:load_model_func"]}
{"id": "C134", "title": "A cost function is either compiled correctly or refused, and a refusal leaves the saved one alone", "statement": "For every formula and matching data gen_cost_func either returns (and saves) a function that computes the misfit, or raises and leaves a function saved earlier under the same name in place. The first part is proved: a formula without unevaluated real and imaginary parts always gives its cost; in general the outcome is the misfit, or OSError (FileNotFoundError, depending on the compiler), never another function; files of other names are untouched. REFUTED for the second part: when compilation fails the function saved before is lost.", "quantifier": "for all formulas, data, argument lists, files on the disk, and for compilers that do and do not accept undeclared functions", "why_tests_cant": "whether an expression compiles depends on all of its subexpressions; the failing case has to be reached through sympy and a C compiler", "anchors": ["shgpy/fformfit.py:gen_cost_func", "shgpy/fformfit.py:_fixed_autowrap", "shgpy/fformfit.py:_make_energy_func_chunked", "shgpy/fformfit.py:load_func"]}
{"id": "C135", "title": "A model loaded for several processes is the saved model, wherever and whenever it is called", "statement": "load_model_func with multiprocessing=True returns a function that computes the model saved in the folder at the time of loading, in every process and at every call. Proved for folders given by their absolute name, from which the process has opened nothing before or in a process started later, as long as no model is saved there again; and a frequency computed once is computed in the same way until the process ends. REFUTED in general: libraries are opened at each call, so after another model is saved in the folder the same function computes some polarizations from the old and some from the new model; and for a model in the working directory, loaded from \".\", every call raises OSError, although loading without multiprocessing works.", "quantifier": "for all formulas, folders, orders in which folders are listed, and all sessions of generating, loading, calling and starting processes", "why_tests_cant": "the outcome depends on the whole history of a process and on the state of the dynamic loader; a test calls the function once, right after loading it", "anchors": ["shgpy/fformfit.py:load_model_func", "shgpy/fformfit.py:_load_func_dict", "shgpy/fformfit.py:_load_func", "shgpy/fformfit.py:gen_model_func"]}
{"id": "C136", "title": "The unit of intensity does not matter to the fit", "statement": "For a crystal of the tables, fitting Fourier data that were scaled or normalized, or transformed from scaled data, gives the tensors of the unscaled data times the square root of the factor: the cost of tensors larger by the square root is the old cost times the square of the factor, so the best fits correspond one to one. The factor is the one by which the recorded scale was multiplied.", "quantifier": "for all crystals of the tables, real or complex tensors, angles of incidence, data, scale factors and normalizations that succeed, linear interpolations, and argument lists", "why_tests_cant": "the correspondence is between all minima of two cost functions over all parameter values; a test compares two runs of a numerical minimiser", "anchors": ["shgpy/core/data_handler.py:fDataContainer.scale_fdata", "shgpy/core/data_handler.py:fDataContainer.normalize_fdata", "shgpy/core/data_handler.py:DataContainer.scale_data", "shgpy/fformfit.py:gen_cost_func", "shgpy/fformgen.py:generate_contracted_fourier_transforms"]}
{"id": "C137", "title": "A missing value does not change the Fourier transform silently, and stays in its polarization", "statement": "If a value of a polarization is missing (nan), dat_to_fdat with the default interpolation makes every Fourier coefficient of this polarization nan. With linear interpolation it either does the same or gives, bit for bit, the coefficients that any other value in this place would give, namely if no sampling angle lies next to it; it does the same whenever the data were taken at the sampling angles. The coefficients of the other polarizations do not depend on it.", "quantifier": "for all data, numbers of points, frequencies, orders M, positions of the missing values, and all values of the library functions (exp, linspace, the spline through complete data)", "why_tests_cant": "the effect of a nan depends on how it travels through interpolation, products with complex numbers and a sum in floating point; a test would have to try every position of the gap relative to the sampling angles", "anchors": ["shgpy/core/data_handler.py:dat_to_fdat"]}
{"id": "C138", "title": "A fit of simulated data gives back the data", "statement": "Fourier data are simulated from a Fourier formula with a dictionary of values and fitted with the same formula, with or without bounds (that contain the values). If the optimiser answers, and its answer is the minimum of the function it was given, the dictionary returned by the fit simulates the same data again, coefficient for coefficient, and has one value for every parameter.", "quantifier": "for all formulas of order 16, dictionaries, guesses, bounds, options, files, chunked or not, and every optimiser that finds the minimum when it answers; all seven fit functions", "why_tests_cant": "it is a statement about the composition of simulation, cost function, optimiser and result dictionary for every formula; a test can only run one optimiser on one formula, and cannot tell an inexact optimiser from a wrong cost", "anchors": ["shgpy/fformfit.py:least_squares_fit", "shgpy/fformfit.py:least_squares_fit_with_bounds", "shgpy/fformfit.py:dual_annealing_fit_with_bounds", "shgpy/fformfit.py:basinhopping_fit", "shgpy/fformfit.py:basinhopping_fit_with_bounds", "shgpy/fformfit.py:basinhopping_fit_jac", "shgpy/fformfit.py:basinhopping_fit_jac_with_bounds", "shgpy/core/data_handler.py:fform_to_fdat"]}
{"id": "C139", "title": "Noise in the data moves the fitted curve by at most twice its size", "statement": "Equally spaced measured points are transformed and fitted with a formula by an optimiser whose answer is the minimum of the function it was given. Take any curve of the formula (whose parameters satisfy the bounds) as the true one. The fitted curve is at least as close to the points as the true one; the mean squared distance between the two curves is at most four times the mean squared distance of the true curve from the points; and at every angle the squared distance is at most 4(2M+1) times it. If no point is further than eps from the true curve, that distance is at most eps squared per polarization.", "quantifier": "for all formulas, containers with more than 2M equally spaced points per polarization, interpolations exact at the points, guesses, bounds, options, and every optimiser that finds the minimum when it answers; all seven fit functions", "why_tests_cant": "it quantifies over every noise, every true curve and every angle at once, through transform, cost, optimiser and result", "anchors": ["shgpy/fformfit.py:least_squares_fit", "shgpy/fformfit.py:least_squares_fit_with_bounds", "shgpy/fformfit.py:dual_annealing_fit_with_bounds", "shgpy/fformfit.py:basinhopping_fit", "shgpy/fformfit.py:basinhopping_fit_with_bounds", "shgpy/fformfit.py:basinhopping_fit_jac", "shgpy/fformfit.py:basinhopping_fit_jac_with_bounds", "shgpy/core/data_handler.py:dat_to_fdat"]}
{"id": "C140", "title": "The orientation of the sample may be left to the fit", "statement": "A Fourier formula is shifted by a parameter psi of its own (apply_phase_shift with a symbol) and fitted. If the Fourier data are shifted by an angle a (phase_shift_fdata), every value of the cost is found again at the parameters with a added to psi and the others unchanged, and the best fits of the shifted data are the best fits of the original data with a added to psi. If the measured data are turned before the transform (phase_shift_data, by a multiple of their spacing), the same holds with -a.", "quantifier": "for all formulas without psi, data, angles, argument lists with psi anywhere, chunked or not", "why_tests_cant": "the sign and the size of the change of psi have to be right for every formula and every data set; a test sees one optimiser run", "anchors": ["shgpy/core/data_handler.py:fFormContainer.apply_phase_shift", "shgpy/core/data_handler.py:fDataContainer.phase_shift_fdata", "shgpy/core/data_handler.py:DataContainer.phase_shift_data", "shgpy/fformfit.py:gen_cost_func"]}
{"id": "C141", "title": "A fit may be started from the result of another fit", "statement": "The dictionary returned by any of the fit functions (ret.xdict) is a complete guess_dict for the next fit: it is read back as exactly the array the optimiser returned. In a series of fits by the four functions in any order, each started from the dictionary of the one before, with any settings and cost-function files, no result fits worse than an earlier one or than the first guess, if each optimiser returns a point no worse than its start. The same holds if the first fit saves its cost function and the others load it.", "quantifier": "for all formulas, data, first guesses and series of fits of any length, all optimisers no worse than their start", "why_tests_cant": "the order in which parameters are put into the array and taken out again has to be the same in four functions, and the two cost conventions (square root or not) must agree on which point is better; a test sees one series", "anchors": ["shgpy/fformfit.py:least_squares_fit", "shgpy/fformfit.py:dual_annealing_fit", "shgpy/fformfit.py:basinhopping_fit", "shgpy/fformfit.py:basinhopping_fit_jac"]}
{"id": "C142", "title": "A fit in stages never gets worse when parameters are freed", "statement": "Numbers are substituted for some parameters of a Fourier formula (subs) and the rest is fitted; then the whole formula is fitted, started from the result together with the numbers ({**ret.xdict, **fixed}). The second result is at least as good as the first, for each of the fit functions, if its optimiser returns a point no worse than its start. The start has a value for every parameter, if the substitution has removed no parameter besides those replaced. The same holds when parameters are tied to others by expressions (b = 2*a) and the second fit is started from the values of these expressions. And for two crystals of the tables, every symmetry of the first a symmetry of the second: whatever values were found for the more symmetric crystal, there is a start for the less symmetric one, complete, from which no fit ends worse.", "quantifier": "for all formulas, data, substituted numbers or real expressions, results of the first stage and optimisers no worse than their start", "why_tests_cant": "the substitution, the cost functions of two formulas with different parameters and the two dictionaries have to fit together for every formula; a test sees one pair of fits", "anchors": ["shgpy/core/data_handler.py:fFormContainer.subs", "shgpy/fformfit.py:least_squares_fit", "shgpy/fformfit.py:dual_annealing_fit", "shgpy/fformfit.py:basinhopping_fit", "shgpy/fformfit.py:basinhopping_fit_jac"]}
{"id": "C143", "title": "The cost is the distance of the data from the simulated data", "statement": "For Fourier data and a Fourier formula fitted to them, the value of the cost function at a list of parameter values is the sum of the squared moduli of the differences between the data and the data simulated with fform_to_fdat at the same values. So the goodness of a fit can be checked without the cost function, and what the result of a fit simulates is no farther from the data than what its start simulates, if the optimiser returns a point no worse than its start.", "quantifier": "for all formulas of order 16, matching data, parameter values, chunked or not; all optimisers no worse than their start", "why_tests_cant": "two independent paths through the code (compiled cost function, substitution and conversion) have to agree for every formula and value; a test compares a few numbers", "anchors": ["shgpy/fformfit.py:gen_cost_func", "shgpy/core/data_handler.py:fform_to_fdat", "shgpy/fformfit.py:least_squares_fit", "shgpy/fformfit.py:dual_annealing_fit", "shgpy/fformfit.py:basinhopping_fit", "shgpy/fformfit.py:basinhopping_fit_jac"]}
{"id": "C144", "title": "make_tensor_complex and make_tensor_real lose no values", "statement": "If no name it makes is used twice or already belongs to a real symbol of the tensor, the tensor make_tensor_complex returns takes, for real values of its symbols, exactly the values the original takes for complex values of its parameters; which prefixes and suffixes are chosen does not matter. With a clash no values are added, but values can be lost: the same prefix for both parts, or a real symbol named real_x beside a parameter x. make_tensor_real gives exactly the values for real values of the parameters, if no parameter has the name of a real symbol.", "quantifier": "for every tensor of expressions, all ordinary names, prefixes and suffixes, every iteration order of the sets", "why_tests_cant": "a statement about the set of all values for all assignments; a clash of names raises no error", "anchors": ["shgpy/core/utilities.py:make_tensor_complex", "shgpy/core/utilities.py:make_tensor_real"]}
{"id": "C145", "title": "The number of samples that Fourier data without high orders need", "statement": "Fourier data of maximal order M of real curves without orders beyond B are given back by dat_to_fdat(fdat_to_dat(f, n), interp, M) exactly when more than M + B samples are taken: then always, and for every smaller number of samples some such data come back changed. Real formulas the lookup table covers have no orders beyond 8, so with more than 24 points dat_to_fdat of form_to_dat equals form_to_fdat.", "quantifier": "for all M, B, n, all such data, all covered formulas and values, all interpolators exact at the nodes", "why_tests_cant": "a test tries a few M, B and n; below the bound the result is wrong without an error", "anchors": ["shgpy/core/data_handler.py:fdat_to_dat", "shgpy/core/data_handler.py:dat_to_fdat", "shgpy/core/data_handler.py:form_to_dat", "shgpy/core/data_handler.py:form_to_fdat"]}
{"id": "C146", "title": "Data measured on the crystal of a formula identify its patterns", "statement": "Take a Fourier formula generated for tensors with parameters, and a data container with more than 24 equally spaced noiseless points per polarization of a crystal with such tensors. dat_to_fdat accepts it, the generated cost is zero at the true parameters, and at other parameters it is zero exactly if the four rotational patterns are the same at every angle. So a fit whose optimiser finds the minimum returns parameters with the patterns of the crystal, whichever fitting function is used.", "quantifier": "for all tensors with real parameters, angles of incidence, containers, parameter values, and all seven fitting functions without a saved cost function", "why_tests_cant": "a test fits one simulated crystal and compares a few numbers; it cannot show that a zero cost at a few points means equal patterns at every angle", "anchors": ["shgpy/fformgen.py:generate_contracted_fourier_transforms", "shgpy/core/data_handler.py:dat_to_fdat", "shgpy/fformfit.py:gen_cost_func", "shgpy/fformfit.py:least_squares_fit", "shgpy/fformfit.py:least_squares_fit_with_bounds", "shgpy/fformfit.py:basinhopping_fit", "shgpy/fformfit.py:basinhopping_fit_with_bounds", "shgpy/fformfit.py:basinhopping_fit_jac", "shgpy/fformfit.py:basinhopping_fit_jac_with_bounds", "shgpy/fformfit.py:dual_annealing_fit_with_bounds"]}
{"id": "C147", "title": "A crystal with one parameter is measured up to its sign", "statement": "If both susceptibilities are multiples of one real parameter, the cost of noiseless data of that crystal vanishes exactly at the true value and at its opposite, provided the crystal gives light at some polarization and angle; otherwise it vanishes everywhere. Each fitting function whose optimiser finds the minimum then returns the parameter up to its sign. For a zincblende crystal (class T_d from the tables, no quadrupole radiation) the sign alone is lost at every angle of incidence strictly between 0 and 90 degrees, and everything at 0.", "quantifier": "for all one-parameter tensors, angles of incidence, containers, values, optimisers that find the minimum", "why_tests_cant": "a test fits a few crystals; whether another value fits the same data is a statement about all values", "anchors": ["shgpy/tensor_definitions.py:dipole", "shgpy/fformgen.py:generate_contracted_fourier_transforms", "shgpy/core/data_handler.py:dat_to_fdat", "shgpy/fformfit.py:gen_cost_func", "shgpy/fformfit.py:least_squares_fit", "shgpy/fformfit.py:basinhopping_fit", "shgpy/fformfit.py:basinhopping_fit_jac", "shgpy/fformfit.py:dual_annealing_fit_with_bounds"]}
{"id": "C148", "title": "Errors of the points bound the errors of the fitted crystal", "statement": "If more than 32 equally spaced points per polarization are the intensities of a crystal with the tensors of a generated Fourier formula, each up to an error of at most e, then a fit whose optimiser finds the minimum returns parameters whose intensities differ from those of the crystal by at most 23 e at every angle and polarization. With a single parameter, the error of its square times the intensity of the crystal with parameter 1 is at most 23 e; for zincblende that intensity may be taken as the square of the sine of twice the angle of incidence.", "quantifier": "for all tensors with real parameters, angles of incidence, containers, errors, parameter values, and all seven fitting functions", "why_tests_cant": "a test adds a few random errors to a few crystals; the bound concerns every error and every angle", "anchors": ["shgpy/fformgen.py:generate_contracted_fourier_transforms", "shgpy/core/data_handler.py:dat_to_fdat", "shgpy/fformfit.py:least_squares_fit", "shgpy/fformfit.py:least_squares_fit_with_bounds", "shgpy/fformfit.py:basinhopping_fit", "shgpy/fformfit.py:basinhopping_fit_with_bounds", "shgpy/fformfit.py:basinhopping_fit_jac", "shgpy/fformfit.py:basinhopping_fit_jac_with_bounds", "shgpy/fformfit.py:dual_annealing_fit_with_bounds"]}
{"id": "C149", "title": "What normal incidence cannot see", "statement": "For a Fourier formula generated at angle of incidence 0, only the dipole entries with all indices in the plane of the sample, and the quadrupole entries whose gradient index is the normal and whose other indices are in the plane, enter the cost. So the generated cost function gives the same number when the value of a parameter that occurs in other entries only is changed: no data can determine it. If all entries that enter are zero, the cost is the power of the data whatever the parameters. The symbolic formulas of formgen at angle of incidence 0 depend on the same entries, and on the magnetic ones with all indices in the plane.", "quantifier": "for all tensors with real parameters, all Fourier data, parameter values, argument orders, chunked or not", "why_tests_cant": "a test changes one parameter of one crystal; the claim is about every tensor and every data set", "anchors": ["shgpy/fformgen.py:generate_uncontracted_fourier_transforms", "shgpy/fformgen.py:generate_contracted_fourier_transforms", "shgpy/fformfit.py:gen_cost_func", "shgpy/formgen.py:formgen"]}
{"id": "C150", "title": "Noiseless data on the curves of symbolic formulas", "statement": "Let symbolic formulas be converted with form_to_fform, and let data consist of more than 24 equally spaced points per polarization that lie on the curves of the formulas at some parameter values. The generated cost function is zero at those values, and at other values exactly if they give the same curves at every angle. A fit with an optimiser that finds the minimum returns values that give the curves of the data.", "quantifier": "for all formulas that are sums of products with powers of sin(phi) and cos(phi) of total order up to 8 (or one product or power of order 2 to 8, or free of phi), all data on their curves where these are real, parameter values, argument orders, chunked or not, and the five fitting functions", "why_tests_cant": "a test fits one formula; the claim is that no other values than those with equal curves have zero cost, for every formula", "anchors": ["shgpy/core/data_handler.py:form_to_fform", "shgpy/core/data_handler.py:dat_to_fdat", "shgpy/fformfit.py:gen_cost_func", "shgpy/fformfit.py:least_squares_fit", "shgpy/fformfit.py:basinhopping_fit_jac"]}
