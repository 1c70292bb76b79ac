#!/usr/bin/env python3
"""Writes /verif/properties.jsonl from the table below (one object per property)."""
import json, os
P = []
def p(id, title, statement, quantifier, why, *anchors):
    P.append(dict(id=id, title=title, statement=statement, quantifier=quantifier,
                  why_tests_cant=why, anchors=list(anchors)))
DH='shgpy/core/data_handler.py'
UT='shgpy/core/utilities.py'
FT='shgpy/core/_fourier_transform.py'
FG='shgpy/formgen.py'
FF='shgpy/fformgen.py'
FIT='shgpy/fformfit.py'
TD='shgpy/tensor_definitions.py'
p('C01','Constructed data is in normal form',
  'Every successfully constructed DataContainer exposes, for every key, angles in [0, 2*pi) in nondecreasing order, with angle and value columns of equal non-zero length, and the same keys in the same order as the input.',
  'for every input dictionary, unit and incidence flag for which construction succeeds',
  'the angles are arbitrary reals, in any order and number; tests only try a few files',
  f'{DH}:DataContainer.__init__', f'{DH}:DataContainer._remove_duplicates', f'{DH}:DataContainer._modulate_data_dict', f'{DH}:DataContainer._sort_data_dict')
p('C02','Duplicate angles are removed at construction',
  'After construction no two points of one polarization have the same angle modulo 2*pi.',
  'for every input data set (claim); holds for data given inside one turn, refuted for data outside [0, 2*pi)',
  'the failure needs two angles that coincide modulo 2*pi and lie outside the first turn; fixtures never contain them',
  f'{DH}:DataContainer._remove_duplicates')
p('C03','Construction invents no measurement and drops only repeated angles',
  'Every stored point is an input point with its angle reduced modulo 2*pi; every input angle is represented modulo 2*pi; for input inside one turn the value kept for an angle is the first one given.',
  'for every input data set and every point of it',
  'quantifies over all data sets, including orderings and repetitions no fixture has',
  f'{DH}:DataContainer.__init__', f'{DH}:DataContainer._remove_duplicates')
p('C04','Degrees and radians describe the same container',
  'Constructing from degrees gives the same container as constructing from the angles converted to radians, and every accessor in degrees returns 180/pi times the angle it returns in radians, with identical values.',
  'for every data set and every accessor',
  'a sign or factor error in one accessor only shows on data that is not symmetric',
  f'{DH}:DataContainer._convert_data_dict_to_radians', f'{DH}:DataContainer._get_data_dict_degrees', f'{DH}:DataContainer.get_pc', f'{DH}:DataContainer.get_items')
p('C05','Unit names are handled uniformly',
  'A unit name is accepted by the constructor exactly when it is accepted by the accessors and by phase_shift_data.',
  'for every string (claim); refuted: the accessors ignore case, the constructor does not',
  'tests only use the two lower-case spellings',
  f'{DH}:DataContainer.__init__', f'{DH}:DataContainer._check_angle_units', f'{DH}:DataContainer.get_pc')
p('C06','Malformed containers are rejected before any state exists',
  'Construction raises ValueError on a bad unit, a non-string key, a value that is not a numeric two-dimensional array with equally shaped first rows, or a polarization without points; every other outcome of construction is success.',
  'for every iterable of key/value pairs',
  'the set of malformed inputs is infinite; tests sample three',
  f'{DH}:DataContainer._check_defining_iterable', f'{DH}:DataContainer.__init__')
p('C07','Scaling is tracked exactly over any history',
  'After any sequence of scale_data calls (failing calls included) get_scale() is the product of the factors accepted, every value is the original value times that product, angles and keys are untouched, and a rejected negative factor changes nothing.',
  'for every container and every finite sequence of calls',
  'histories are unbounded and mix accepted and rejected calls',
  f'{DH}:DataContainer.scale_data', f'{DH}:DataContainer.get_scale')
p('C08','normalize_data reaches the requested maximum',
  'If the current maximum is positive and the desired maximum non-negative, normalize_data(d) succeeds and the maximum afterwards is exactly d; with a negative maximum and positive d it raises ValueError and changes nothing.',
  'for every container and every desired maximum',
  'values are arbitrary reals over any number of polarizations',
  f'{DH}:DataContainer.normalize_data', f'{DH}:DataContainer.get_maxval')
p('C09','Extrema are genuine and attributed to the first polarization attaining them',
  'get_maxval (get_minval) returns an upper (lower) bound of all values, which is attained in the returned polarization, and no earlier polarization attains it; get_pc_maxval/minval do the same for one polarization.',
  'for every constructed container',
  'ties and negative data are needed to separate > from >= and the -inf start value',
  f'{DH}:DataContainer.get_maxval', f'{DH}:DataContainer.get_minval', f'{DH}:DataContainer.get_pc_maxval', f'{DH}:DataContainer.get_pc_minval')
p('C10','subtract_min makes the minimum zero and preserves differences',
  'After subtract_min the global minimum is 0, all differences between values are unchanged, angles are unchanged and the recorded offset decreases by the old minimum; a second call changes nothing.',
  'for every constructed container',
  'requires arbitrary data over several polarizations',
  f'{DH}:DataContainer.subtract_min', f'{DH}:DataContainer.get_offset')
p('C11','The recorded scale and offset reconstruct the data',
  'For every history of scale_data, normalize_data and subtract_min, current value = get_scale() * original value + get_offset().',
  'for every container and history (claim); holds while no offset precedes a scaling, refuted in general because scaling does not rescale the recorded offset',
  'only histories that scale after subtracting expose it',
  f'{DH}:DataContainer.scale_data', f'{DH}:DataContainer.subtract_min', f'{DH}:DataContainer.get_offset')
p('C12','phase_shift_data is an action of the circle on the data',
  'Shifting by a then b gives the same points as shifting by a+b; shifting by a multiple of 2*pi gives back the same points; values are permuted together with their angles; the recorded phase shift is the sum of all shifts; results stay in normal form.',
  'for every container and every finite sequence of shifts in either unit',
  'wrap-around position depends on the shift; only a proof covers all of them',
  f'{DH}:DataContainer.phase_shift_data', f'{DH}:DataContainer.get_phase_shift')
p('C13','normal_to_oblique completes the four polarizations consistently',
  'With normal_to_oblique=True construction succeeds exactly when the first two letters, upper-cased, of the keys form {PP,PS,SP,SS} or one of the four pairs {PP|SS} x {PS|SP}; the result has exactly the four keys, and each missing combination is its partner (PP<->SS, PS<->SP) rotated by 90 degrees: it has value y at angle x+pi/2 exactly when the partner has value y at x.',
  'for every input dictionary',
  'sixteen or more key subsets times arbitrary spellings and data',
  f'{DH}:DataContainer._coerce_to_oblique_incidence')
p('C14','normal_to_oblique returns the documented key order',
  "The docstring promises get_keys() == ['PP','PS','SP','SS'] after coercion.",
  'for every accepted input (claim); refuted, the order starts with the given keys',
  'only some of the input orders expose it',
  f'{DH}:DataContainer._coerce_to_oblique_incidence', f'{DH}:DataContainer.get_keys')
p('C15','copy() returns an equal container that can be used in its place',
  'copy() succeeds and the copy answers every later sequence of method calls as the original would.',
  'for every container of the four classes and every later call sequence (claim); holds for form containers and for the Fourier data until a phase shift, refuted for DataContainer (always raises) and for fDataContainer followed by phase_shift_fdata',
  'needs an operation after the copy; the failure is in the bookkeeping field',
  f'{DH}:DataContainer.copy', f'{DH}:fDataContainer.copy', f'{DH}:FormContainer.copy', f'{DH}:fFormContainer.copy')
p('C16','Fourier-space data operations obey their group laws',
  'scale_fdata multiplies every coefficient and records the product; phase_shift_fdata by a then b equals a+b, by 2*pi is the identity, preserves magnitudes, and multiplies component m by exp(i*m*a); normalize_fdata makes the largest magnitude the requested one.',
  'for every M, coefficients, and sequence of operations',
  'complex arithmetic over arbitrary M and histories',
  f'{DH}:fDataContainer.scale_fdata', f'{DH}:fDataContainer.phase_shift_fdata', f'{DH}:fDataContainer.normalize_fdata', f'{DH}:fDataContainer.get_maxval')
p('C17','Phase shifting data and phase shifting its Fourier transform agree',
  'Transforming after DataContainer.phase_shift_data(a) gives the same coefficients as transforming and then fDataContainer.phase_shift_fdata(a).',
  'for every band-limited data set and shift (claim); refuted: the two methods shift in opposite directions, and the law holds with -a',
  'even data or shifts by multiples of pi hide the sign',
  f'{DH}:DataContainer.phase_shift_data', f'{DH}:fDataContainer.phase_shift_fdata', f'{DH}:dat_to_fdat')
p('C18','dat_to_fdat inverts fdat_to_dat',
  'For Hermitian coefficients (the transform of real data) of order M sampled at N > 2M points, transforming the samples back at order M with the same number of interpolation points returns the coefficients exactly.',
  'for every M, every N > 2M and every Hermitian coefficient vector; every interpolator that is exact at its nodes',
  'M, N and the coefficients are unbounded; discrete orthogonality is a theorem, not a test',
  f'{DH}:fdat_to_dat', f'{DH}:dat_to_fdat')
p('C19','The sampling condition is sharp',
  'Whatever the number of samples N, the round trip of C18 returns the aliased coefficient, the sum of the Hermitian parts of all coefficients congruent modulo N; hence with N <= 2M distinct Fourier data give identical samples.',
  'for every N >= 1 and every M',
  'aliasing is a statement about all frequencies',
  f'{DH}:fdat_to_dat', f'{DH}:dat_to_fdat')
p('C20','fform_to_fdat evaluates the formula at the given parameters',
  'For M = 16, fform_to_fdat(fform, d) succeeds exactly when d has a value for every free symbol of fform, each coefficient is then the value of the symbolic coefficient under d, and fform itself is unchanged; otherwise KeyError.',
  'for every Fourier formula and every parameter dictionary',
  'symbolic expressions and dictionaries are unbounded; substitution is sequential in the code',
  f'{DH}:fform_to_fdat', f'{DH}:fFormContainer.subs', f'{DH}:fFormContainer.get_free_symbols')
p('C21','Fourier containers of any order M survive conversion, merging and loading',
  'fform_to_fdat, form_to_fdat, merge_containers and load_fform work for any Fourier order M accepted by the constructor.',
  'for every M (claim); refuted: for every M other than 16 these raise ValueError',
  'the suite only uses M = 16',
  f'{DH}:fform_to_fdat', f'{DH}:form_to_fdat', f'{DH}:merge_containers', f'{DH}:load_fform')
p('C22','The Fourier lookup table is exact',
  'For every pair (c,s) in the table and every n with |n| <= 16 the entry is (1/2pi) * integral over one turn of cos^c(phi) sin^s(phi) exp(-i n phi), and the table contains every (c,s) with c+s <= 8.',
  'for every table entry (45 x 33 exact complex numbers), as a real-analysis integral',
  'numerical quadrature can only confirm entries to rounding',
  'shgpy/core/_lookup_table.py:_lookup_table')
p('C23','form_to_fform returns the Fourier coefficients of the formula',
  'For every formula that is a polynomial in cos(phi), sin(phi) of degree <= 8 the n-th component of form_to_fform evaluates to (1/2pi) * integral of formula * exp(-i n phi).',
  'for every expression, parameter values and n (claim); proved for sums whose summands are products of at least two factors and for single products of degree 0 or >= 2; refuted for a sum with an atomic or power summand, and for a single term linear in cos(phi) or sin(phi)',
  'expressions are unbounded; the bug depends on the shape of the sympy tree',
  f'{FT}:_fourier_transform', f'{FT}:_get_keyterms', f'{FT}:_get_code', f'{DH}:form_to_fform')
p('C24','Fourier synthesis inverts Fourier analysis of formulas',
  'For formulas covered by C23 and 8 <= M <= 16, fform_to_form(form_to_fform(form, M)) denotes the same function of phi as form; for smaller M it is the truncated series.',
  'for every such formula, all parameter values and all phi',
  'equality of functions at all angles',
  f'{DH}:form_to_fform', f'{DH}:fform_to_form')
p('C25','form_to_fform supports every Fourier order',
  'form_to_fform(form, M) works for every M.',
  'for every M (claim); proved for M <= 16, refuted (IndexError) for every M > 16 as soon as the formula depends on phi',
  'the suite never passes M',
  f'{FT}:_fourier_transform', f'{DH}:form_to_fform')
p('C26','Phase shifts of formulas commute with Fourier transformation',
  'Shifting a Fourier formula by a and synthesising gives the formula with phi replaced by phi+a; shifts add; fDataContainer, FormContainer and fFormContainer use the same sign.',
  'for every formula, shift expression, parameters and phi',
  'holds as an identity of functions',
  f'{DH}:FormContainer.apply_phase_shift', f'{DH}:fFormContainer.apply_phase_shift', f'{DH}:fform_to_form')
p('C27','Sampling a formula directly or through Fourier space gives the same data',
  'form_to_dat(fform_to_form(F), d, N) and fform_to_dat(F, d, N) give the same values at the same angles whenever both succeed.',
  'for every Fourier formula with real values, parameters and N',
  'equality for all formulas and sample counts',
  f'{DH}:form_to_dat', f'{DH}:fform_to_dat', f'{DH}:fdat_to_dat', f'{DH}:fform_to_form')
p('C28','form_to_dat accepts every fully substituted formula',
  'form_to_dat succeeds whenever the dictionary gives a value to every symbol other than phi.',
  'for every formula (claim); proved when some component depends on phi, refuted for constant formulas',
  'fixtures always depend on phi',
  f'{DH}:form_to_dat')
p('C29','merge_containers is the ordered union with the last container winning',
  'Merging containers of one supported type with key mapping functions yields exactly the mapped keys; the data of a key comes from the last container (and last key) mapped to it; other types raise TypeError.',
  'for every list of containers and every list of key mappings',
  'collisions depend on the mapping functions',
  f'{DH}:merge_containers')
p('C30','dat_add and dat_subtract act pointwise and are inverse',
  'They succeed only for equal key sets and matching angles, add or subtract values point by point at unchanged angles, and dat_subtract(dat_add(a,b),b) has the data of a.',
  'for every pair of containers',
  'needs arbitrary key orders and data',
  f'{DH}:dat_add', f'{DH}:dat_subtract')
p('C31','Tensor contraction is the indexed sum, in any rank and any pair order',
  'tensor_contract(t, pairs) equals the sum over repeated indices named by pairs, indexed by the remaining axes in order, for every rank, every list of disjoint pairs; the result does not depend on the order of the pairs or within a pair. A list that names an axis twice or a missing axis is refused.',
  'for every rank, dimension, tensor over a commutative ring and list of disjoint pairs',
  'index bookkeeping after each trace is only exercised on three shapes by tests',
  f'{UT}:tensor_contract', f'{UT}:tensor_product')
p('C32','transform is a group action on tensors of any rank',
  'transform(t, R) has components sum R[i1,a1]...R[ir,ar] t[a1..ar]; transform(t, I) = t; transform(transform(t, A), B) = transform(t, B A); it is linear in t.',
  'for every rank of at least 1, tensor and pair of matrices (rank 0 is refused)',
  'unbounded rank and entries',
  f'{UT}:transform')
p('C33','particularize enforces the permutation symmetry',
  'For a rank-r tensor of dimension 3 the result is symmetric in its last two indices (in all indices with permute_all_indices=True), for all parameter values, whenever the solver returns a solution of the equations it was given; a tensor that is already symmetric is returned unchanged.',
  'for every tensor and every sound solver',
  'tensors and ranks unbounded',
  f'{UT}:particularize', f'{UT}:_particularize_last_two', f'{UT}:_particularize_all')
p('C34','make_tensor_complex and make_tensor_real give real parameters with the intended meaning',
  'After either call every remaining symbol without a reality assumption is gone; the value of each entry equals the value of the original entry with x := real_x + i imag_x (resp. the real x); both are idempotent; the result passes the real-parameter check required by formgen and fformgen unless the input contained a symbol declared non-real. make_tensor_complex raises if a prefix or suffix makes the name of either part two names separated by a comma.',
  'for every tensor of expressions, every assignment, and all names sympy.symbols reads as one symbol (no commas, colons or blanks)',
  'sequential string substitution over arbitrary names',
  f'{UT}:make_tensor_complex', f'{UT}:make_tensor_real', f'{UT}:_assert_real_params')
p('C35','rotation_matrix3 returns the rotation about the axis',
  'For every non-zero axis of floats and every angle the matrix is orthogonal with determinant 1, fixes the axis, has trace 1+2cos t, rotates perpendicular vectors by t in the right-handed sense; angles add about a fixed axis; scaling the axis by a positive factor changes nothing.',
  'for every axis and angle; refuted for integer arrays, where normalisation truncates',
  'continuum of axes and angles',
  f'{UT}:rotation_matrix3', f'{UT}:rotation_matrix3symb')
p('C36','rotation_matrix_from_two_vectors is a rotation taking one direction to the other',
  'For all non-zero vectors the (unrounded) result is a proper rotation mapping v_initial/|v_initial| to v_final/|v_final|, and rounding changes each entry by at most half a unit of the last kept digit.',
  'for every pair of vectors (claim); proved for all non-antiparallel pairs, refuted for antiparallel ones where -identity is returned (determinant -1)',
  'special direction pairs are a measure-zero set',
  f'{UT}:rotation_matrix_from_two_vectors', f'{UT}:_cross_product', f'{UT}:_levi_civita')
p('C37','union keeps the first occurrence of every element in order',
  'union(*arrays) contains exactly the elements of the arrays, each once, ordered by first occurrence.',
  'for every list of arrays',
  'unbounded lists',
  f'{UT}:union')
p('C38','Every tabulated dipole tensor is invariant under its point group',
  'For each of the 32 names, the dipole (and surface) tensor is unchanged by transform with every operation of a point group of that name, for all values of its parameters.',
  'for all parameter values, for every element of each group',
  'parameters are free reals; the group is a set of matrices',
  f'{TD}:dipole', f'{TD}:surface', f'{UT}:transform')
p('C39','Every invariant tensor is an instance of the tabulated dipole tensor',
  'For each name, any rank-3 tensor invariant under the group is obtained from the tabulated tensor by a choice of parameters, and that choice is unique.',
  'for every real rank-3 tensor invariant under the group',
  'universal statement about all invariant tensors',
  f'{TD}:dipole')
p('C40','The tabulated quadrupole tensors are invariant and complete',
  'As C38 and C39 for the quadrupole tensors of rank 4: every one of the 32 documented point groups and the isotropic medium has an entry, and that entry is the general invariant tensor.',
  'for all parameter values and all invariant tensors',
  'as C38',
  f'{TD}:quadrupole')
p('C41','Dipole and quadrupole tables use the same crystal axes',
  'For each group name the dipole and quadrupole tensors are invariant under one common orientation of the group.',
  'for each name that occurs in both tables; refuted for names where the two tables need different orientations',
  'requires comparing symmetry groups of parametrised tensors',
  f'{TD}:dipole', f'{TD}:quadrupole')
p('C42','The surface table is the dipole table with renamed parameters',
  'For every name surface[name] is dipole[name] with each parameter x replaced by sx.',
  'for all 32 names and all 27 entries',
  'copy-paste errors in 864 entries',
  f'{TD}:surface', f'{TD}:dipole')
p('C43','Generated intensities are physical',
  'For all real parameter values and angles, the formulas generated by formgen for PP, PS, SP, SS evaluate to non-negative real numbers and the radiating source is orthogonal to the outgoing wave vector.',
  'for every tensor triple, angle of incidence, phi and parameter value',
  'continuum of inputs',
  f'{FG}:gen_S', f'{FG}:formgen')
p('C44','formgen implements the multipole radiation formula',
  'formgen(theta, eee, mee, qee) evaluates to the component-wise formula |proj(P + k x M + i Q.k)|^2 with the crystal rotated by phi about z, for the in/out polarizations named by the key; it raises ValueError exactly when all tensors are None (or a parameter is not real).',
  'for every combination of tensors, angle of incidence, phi and parameters',
  'index contractions are easy to permute silently',
  f'{FG}:gen_S', f'{FG}:formgen', f'{FG}:gen_levi_civita')
p('C45','The deprecated generators agree with their replacement',
  'formgen_just_dipole(t,theta) and formgen_dipole_quadrupole(t,q,theta) denote the same functions as formgen(theta,t) and formgen(theta,t,None,q); make_form_from_P_and_Q applied to the gen_P functions does too.',
  'for all tensors, angles and parameters; refuted for gen_P_just_dipole, whose zero quadrupole is rejected',
  'identity of functions',
  f'{FG}:formgen_just_dipole', f'{FG}:formgen_dipole_quadrupole', f'{FG}:make_form_from_P_and_Q', f'{FG}:gen_P_just_dipole', f'{FG}:gen_P_dipole_quadrupole')
p('C46','A crystal with a rotation axis along z gives a periodic pattern',
  'If the tensors are invariant under rotation by a about z, every generated intensity is periodic in phi with period a; with an n-fold axis only Fourier components divisible by n survive.',
  'for every such tensor, every angle of incidence',
  'universal over tensors and angles',
  f'{FG}:formgen', f'{TD}:dipole', f'{UT}:transform')
p('C47','normal_to_oblique is justified by formgen at normal incidence',
  'At theta = 0 the formulas satisfy SS(phi+pi/2) = PP(phi) and SP(phi+pi/2) = PS(phi) and vice versa, the relation the data coercion of C13 imposes.',
  'for all tensors, parameters and phi',
  'identity of functions',
  f'{FG}:formgen', f'{DH}:DataContainer._coerce_to_oblique_incidence')
p('C48','Generated formulas never exceed the lookup table',
  'Every intensity produced by formgen is a trigonometric polynomial in phi of degree at most 6 (dipole only) or 8, so all Fourier components beyond are zero.',
  'for all tensors, angles of incidence and parameters',
  'universal over tensors',
  f'{FG}:formgen', 'shgpy/core/_lookup_table.py:_lookup_table')
p('C49','Fourier-space convolution multiplies tensor-valued functions',
  '_convolve_ftensors returns the coefficients of the tensor product of the two functions whenever the bandwidths add up to at most M; otherwise components wrap around through negative indices.',
  'for every M, shapes, coefficient arrays and bandwidths',
  'wrap-around needs bandwidths no fixture reaches',
  f'{FF}:_convolve_ftensors')
p('C50','The Fourier formula generator is correct',
  'For M = 16 the contracted Fourier transforms, summed as a Fourier series, equal for every phi the squared modulus of the projected dipole+quadrupole source in the documented geometry.',
  'for all complex tensors, angles of incidence and phi',
  'eleven convolutions and eight contraction lists; tests compare a few coefficients',
  f'{FF}:generate_uncontracted_fourier_transforms', f'{FF}:generate_contracted_fourier_transforms')
p('C51','Both formula generators describe the same experiment',
  'The Fourier formulas of fformgen are the Fourier coefficients of formgen for the same tensors and angle of incidence.',
  'for all tensors and angles (claim); refuted: the two differ by a half turn of phi, coefficient m by (-1)^m, and agree after apply_phase_shift(pi)',
  'even-order symmetric crystals hide the difference',
  f'{FF}:generate_uncontracted_fourier_transforms', f'{FG}:formgen')
p('C52','The fit cost is the squared misfit',
  'The cost built from a Fourier formula and Fourier data is the sum over polarizations and frequencies of |formula - data|^2; it is non-negative, zero exactly when the formula reproduces the data, and equals the mean squared misfit in phi-space over any grid with more than 2M points.',
  'for all formulas, data and parameter values',
  'Parseval identity over all M and N',
  f'{FIT}:_make_energy_expr')
p('C53','Chunking does not change the cost or the model',
  'Splitting an expression into chunks of any positive size preserves its value, every chunk is non-empty and no larger than requested; chunk size 0 raises ZeroDivisionError.',
  'for every list of terms and chunk size',
  'boundary sizes',
  f'{FIT}:_split', f'{FIT}:_split_expr', f'{FIT}:_make_energy_expr_list')
p('C54','Mismatched Fourier orders are detected by the fit',
  'Building the cost from a formula and data of different order M raises an error.',
  'for all orders (claim); refuted: data of higher order is silently misaligned, lower order raises IndexError',
  'the suite only uses equal orders',
  f'{FIT}:_make_energy_expr', f'{FT}:n2i')
p('C55','Fit results are attributed to the right parameters',
  'For every optimiser, the returned dictionary maps each free symbol to its own coordinate, the start vector and bounds are in the same order, and a start dictionary without one of the symbols raises KeyError; a formula without free parameters is refused without calling the optimiser.',
  'for every formula, start dictionary and optimiser behaviour',
  'ordering is by string sort of arbitrary names',
  f'{FIT}:basinhopping_fit', f'{FIT}:dual_annealing_fit_with_bounds', f'{FIT}:least_squares_fit')
p('C56','Fitting does not alter the options passed in',
  'Calling basinhopping_fit twice with the same options dictionary runs the same local minimiser options twice.',
  'for every options dictionary (claim); refuted: the first call removes minimizer_kwargs from it',
  'requires a second call with the same dictionary',
  f'{FIT}:basinhopping_fit')
p('C57','A saved model reloads as the same model',
  'After saving a compiled model to a folder, loading it with the same keys evaluates to the same complex value for every polarization, frequency and parameter vector, whatever the folder contained before and in whatever order the files are listed.',
  'for every formula, folder content and directory order (claim); proved when no key together with frequency and component is a prefix of another file name; refuted for keys that contain such a suffix',
  'file-name collisions depend on keys',
  f'{FIT}:_load_func_dict', f'{FIT}:gen_model_func', f'{FIT}:load_model_func')
p('C58','A saved cost gradient reloads as the same gradient',
  'Loading a saved cost and gradient returns exactly the functions last saved under that prefix.',
  'for every history of saves (claim); proved on a fresh prefix or after saving at least as many components, refuted when an earlier save had more components',
  'requires two saves with different parameter counts',
  f'{FIT}:_load_energy_and_denergy_func', f'{FIT}:_make_denergy_func_auto')
p('C59','Saving and loading a Fourier formula is lossless',
  'load_fform(save_fform(F)) has the keys and expressions of F.',
  'for every Fourier formula, given that the expression printer and parser are inverse (claim); proved for order 16, see C21 for others',
  'all formulas',
  f'{DH}:save_fform', f'{DH}:load_fform')
p('C60','as_pandas labels every value with its own angle',
  'Every row of as_pandas(units, index) carries a polarization, an angle and a value that occur together in the container, and every point appears once.',
  "for every container (claim); proved for index='none' and for containers whose polarizations share one angle list, refuted for index='multi' otherwise, in particular after normal_to_oblique",
  'fixtures share one angle grid',
  f'{DH}:DataContainer.as_pandas')
p('C61','Reading a container never exposes its internal arrays',
  'Writing to an array returned by get_pc, get_values or get_items does not change the container, and containers never share arrays with the caller or each other.',
  'for every heap, container and sequence of writes (claim); proved for get_pc, the degree accessors, construction and merging; refuted for get_values and get_items in radians',
  'aliasing is a property of histories',
  f'{DH}:DataContainer.get_pc', f'{DH}:DataContainer.get_items', f'{DH}:DataContainer.get_values', f'{DH}:DataContainer.__init__')
p('C62','Plots show every requested polarization exactly once',
  'easy_plot with one to four polarizations uses a grid with exactly that many axes and refuses more than four; easy_polar_plot works for any positive number.',
  'for every list of polarizations (claim); the polar half is refuted for a single polarization',
  'rendering tests are not run',
  'shgpy/plotter.py:easy_plot', 'shgpy/plotter.py:easy_polar_plot')
p('C63','load_data_and_fourier_transform returns a data set and its transform',
  'The pair returned by load_data_and_fourier_transform satisfies fdat = transform of dat, for every scale.',
  'for every file content and scale (claim); proved for scale 1, refuted (AttributeError) for every other scale',
  'the suite uses the default scale',
  f'{DH}:load_data_and_fourier_transform')
p('C64','The order of the Fourier generators can be chosen',
  'generate_uncontracted_fourier_transforms(M=...) followed by generate_contracted_fourier_transforms(M=...) returns the Fourier coefficients of the intensity for every order large enough to hold them.',
  'for every order M, all tensors and angles (claim); refuted: 0 and everything above 16 raises IndexError, from 1 to 15 every coefficient of frequency -4 or more is zero; proved for 16 (C50)',
  'only the default order is used by the suite; smaller orders return well-formed wrong results',
  f'{FF}:generate_uncontracted_fourier_transforms', f'{FF}:generate_uncontracted_fourier_transforms_symb', f'{FF}:_convolve_ftensors')
FIT = 'shgpy/fformfit.py'
p('C65','The gradient given to the optimiser is the gradient of the cost',
  'Whenever cost and gradient are generated, every component of the gradient is the partial derivative of the squared misfit with respect to its parameter; it can be generated whenever the cost can and depends on a parameter. Chunking together with a gradient is refused before anything is written.',
  'for all formulas, data, argument lists and parameter values; the second half is proved for formulas in real parameters without conjugates and refuted for complex ones (OSError)',
  'finite differences test single points; the failure depends on how symbols were declared',
  FIT+':_make_denergy_expr', FIT+':_make_energy_and_denergy_func_wrapper', FIT+':basinhopping_fit_jac')
p('C66','A saved cost can be reused by a fit',
  'Fitting with load_cost_func_filename set to a file written by gen_cost_func gives the same fit as generating the cost.',
  'for all formulas, data, start values and optimisers (claim); proved for the default argument list, refuted when the cost was saved with another argument order: the fit minimises a cost of permuted parameters without an error',
  'requires combining two calls with different argument orders',
  FIT+':gen_cost_func', FIT+':load_func', FIT+':least_squares_fit')
p('C67','An argument list that misses a parameter is refused',
  'gen_cost_func with an argument_list that lacks a free symbol of the formula raises an error. False without chunking: a function is returned whose call is undefined. What holds: whatever is missing or repeated in the list, the result never computes a wrong cost; it is an error or an undefined call, or the squared misfit whatever the missing parameters are; chunked generation refuses every list that misses a parameter on which the misfit depends.',
  'for all formulas, data, argument lists and parameter values',
  'undefined behaviour of compiled code may look right',
  FIT+':gen_cost_func', FIT+':_make_energy_func_auto', FIT+':_make_energy_func_chunked')
p('C68','Loading something that was never saved is an error',
  'load_func, load_model_func and the fits raise when the files they are asked to load do not exist.',
  'for all names (claim); proved for cost functions, refuted for models: a missing or empty folder loads as the model that is zero everywhere',
  'silent success looks like a valid model',
  FIT+':load_model_func', FIT+':_load_func_dict', FIT+':load_func')
p('C69','Generating a cost touches only its own file',
  'gen_cost_func writes the named file and no other, nothing without a name, and leaves the file alone when it fails.',
  'for all formulas, data and directories (claim); the last part is proved for formulas with at least one polarization and refuted for the empty formula, chunked',
  'needs a failing generation on top of an existing file',
  FIT+':gen_cost_func', FIT+':_make_energy_func_chunked')
FG = 'shgpy/formgen.py'
p('C70','Turning the crystal is a phase shift',
  'Transforming all tensors by a rotation about the surface normal by the angle a and generating formulas gives the formulas of the unturned crystal with phi replaced by phi + a, i.e. apply_phase_shift by a.',
  'for all tensors, angles of incidence, parameter values and rotation angles (numeric or symbolic)',
  'tests compare single crystals at single angles; the sign of the shift is a convention shared by two modules',
  f'{FG}:formgen', 'shgpy/core/utilities.py:transform', f'{DH}:FormContainer.apply_phase_shift')
p('C71','Multiplying all tensors by a constant scales the intensities by its squared modulus',
  'formgen of c*e, c*m, c*q equals |c|^2 times formgen of e, m, q; a common phase or sign of the tensors is not observable.',
  'for all complex constants or real-symbol expressions c, all tensors and values',
  'quantifies over all constants; a wrong conjugate shows only for complex values',
  f'{FG}:formgen')
p('C72','Mirror planes show in the pattern',
  'If the tensors are invariant under a mirror plane that contains the surface normal and makes the angle a with x, every intensity is symmetric under phi -> -phi - 2a, and no s-polarized light is radiated at phi = -a. This holds for the tabulated tensors of every group with such a mirror.',
  'for all tensors with the symmetry (magnetic tensors axial), all angles and values; for every table entry',
  'a symmetry of a function over all angles and parameter values',
  f'{FG}:formgen', 'shgpy/tensor_definitions.py:dipole', 'shgpy/tensor_definitions.py:surface', 'shgpy/tensor_definitions.py:quadrupole')
p('C73','Centrosymmetric crystals radiate no electric-dipole harmonic',
  'For every group that contains the inversion, formgen of its dipole (or surface) tensor evaluates to zero at every angle, polarization and parameter value.',
  'for every group of the tables with inversion, all values',
  'depends on 27 table entries per group and all values',
  f'{FG}:formgen', 'shgpy/tensor_definitions.py:dipole', 'shgpy/tensor_definitions.py:surface')
p('C74','Simulated data and simulated Fourier data belong to the same curve',
  'For formulas the lookup table covers and a dictionary with the other symbols: form_to_fdat gives the Fourier coefficients of the formula as a function of phi; form_to_dat with any number of points returns the same container as fdat_to_dat of form_to_fdat; when the formula is real and more than 32 points are taken, dat_to_fdat of the sampled data returns exactly form_to_fdat.',
  'for all covered formulas, dictionaries, numbers of points and interpolators exact at the nodes',
  'an identity between two pipelines, over all formulas and values',
  f'{DH}:form_to_fdat', f'{DH}:form_to_dat', f'{DH}:fdat_to_dat', f'{DH}:dat_to_fdat')
p('C75','The cost is zero at the parameters that generated the data',
  'Fourier data simulated from a Fourier formula with a dictionary of values has cost exactly zero at those values, no vector has a negative cost, and another vector has cost zero if and only if it simulates the same data.',
  'for all formulas, dictionaries, argument orders, vectors, chunked or not',
  'a statement about all vectors; tests try a few',
  f'{FIT}:gen_cost_func', f'{DH}:fform_to_fdat')
p('C76','Data completed at normal incidence lie on the generated curves',
  'When the measurements handed to DataContainer with normal_to_oblique lie on the curves that formgen gives at normal incidence, every point of all four polarizations of the container lies on the curve of its polarization.',
  'for all crystals, parameter values, measured angles, units and combinations of measured polarizations',
  'the sign of the rotation matters and holds only with the generator\'s geometry, for all crystals',
  f'{DH}:DataContainer', f'{FG}:formgen')
p('C77','Methods of a Fourier formula and of the formula it stands for agree',
  'After any sequence of subs, apply_phase_shift and apply_arbitrary_scale whose arguments do not mention phi and keep real symbols and shifts real, converting the Fourier formula gives a formula with the same values as the same sequence on the converted formula.',
  'for all Fourier formulas, sequences of calls and values',
  'sequences of calls are unbounded',
  f'{DH}:fFormContainer', f'{DH}:FormContainer', f'{DH}:fform_to_form')
p('C78','Tables of formulas label every formula correctly',
  'as_pandas of a Fourier formula or formula has, with either index, exactly one row per polarization (and frequency), in the order of the container, holding the formula of that polarization (and frequency); two containers of one order with equal tables hold equal formulas; an unknown index is refused.',
  'for all containers a program can build, all orders',
  'labels and values are built separately and joined by position, for all orders and key sets',
  f'{DH}:fFormContainer.as_pandas', f'{DH}:FormContainer.as_pandas')
p('C79','Rounding moves the coefficients by at most half a unit in the last digit',
  'generate_contracted_fourier_transforms with ndigits writes, for the same polarizations and frequencies, formulas in which each number moved by at most half of 10^-ndigits in its real and imaginary part; a formula whose numbers are short enough keeps its value; no symbol appears; the predicted intensity differs from the exact one by at most 10^-ndigits times the sum of the absolute values of the products of parameters.',
  'for all tensors, numbers of digits, parameter values and angles',
  'an error bound over all values',
  f'{FF}:generate_contracted_fourier_transforms', f'{FF}:_round_expr')
p('C80','Rounded intensities are still intensities',
  'The intensities predicted by formulas generated with ndigits are not negative.',
  'for all tensors, digits, values and angles (claim); refuted for a crystal with the single element yyy, two digits, both polarizers at S, phi = pi/2; proved down to minus the error bound of C79',
  'needs a value where the exact intensity vanishes',
  f'{FF}:generate_contracted_fourier_transforms', f'{FF}:_round_expr')
p('C81','The fit in Fourier space is the least-squares fit to the measured points',
  'For data of more than 2M points per polarization, the mean squared deviation of the formula from the (resampled) points equals the cost plus a constant that does not depend on the parameters: what the truncated transform of the data loses. So the cost ranks parameter vectors exactly as the points do.',
  'for all data containers, interpolations accepting them, formulas of any order and parameter values',
  'a test compares single fits; that no parameter value is ranked differently is a statement about all of them',
  DH+':dat_to_fdat', FIT+':gen_cost_func', FIT+':_make_energy_expr')
p('C82','Shifting formula and data together does not change the cost',
  'Shifting a Fourier formula and Fourier data by the same angle leaves the cost unchanged at every parameter vector; shifting the data before the transform instead (by a multiple of the spacing) corresponds to the opposite sign for the formula.',
  'for all formulas, data, shift expressions with a real value and parameter values',
  'sign conventions of three methods must agree for every frequency',
  DH+':fFormContainer.apply_phase_shift', DH+':fDataContainer.phase_shift_fdata', DH+':DataContainer.phase_shift_data', FIT+':gen_cost_func')
p('C83','Scaling formula and data together scales the cost by the square',
  'Multiplying a Fourier formula and Fourier data by the same nonnegative number multiplies the cost by its square at every parameter vector, so the best parameters stay the same.',
  'for all formulas, data, nonnegative factors and parameter values',
  'universally quantified over parameter vectors',
  DH+':fFormContainer.apply_arbitrary_scale', DH+':fDataContainer.scale_fdata', FIT+':gen_cost_func')
p('C84','The cost of merged containers is the sum of the costs',
  'Formulas and data merged with the same mapping (which keeps the keys of all containers apart) match each other, and their cost is the sum of the costs of the separate pairs: several data sets can be fitted at once.',
  'for all non-empty lists of matching formulas and data of order 16, all mappings without collisions and all parameter values',
  'number of containers and mapping are unbounded',
  DH+':merge_containers', FIT+':gen_cost_func')

p('C85','Only the part symmetric in the two input fields can be observed',
  'Two sets of susceptibility tensors whose values agree after symmetrisation over the two input-field indices give the same intensity formula in every polarization combination: the simulated pattern cannot tell chi_ijk from chi_ikj.',
  'for all tensors of the right shapes accepted by formgen, all angles of incidence, all real parameter values, all azimuths',
  'tensors, parameters and angles are continuous',
  FG+':formgen')

p('C86','Reversing the sign of all tensors does not change the intensities',
  'Two sets of tensors whose values are opposite give the same formulas.',
  'for all tensors accepted by formgen and all real parameter values',
  'tensors and parameters are continuous',
  FG+':formgen')

p('C87','The cost of a fit cannot see a common phase of the tensors, nor the common sign of the parameters',
  'For the Fourier formulas generated from a dipole and a quadrupole tensor, saved and loaded: two parameter vectors at which the tensors differ by a common unit complex factor have the same cost; for tensors of the tables, made real or complex, negating the whole parameter vector leaves the cost unchanged. So minimisers come at least in pairs.',
  'for all angles of incidence, tables, data matching the formulas, argument lists and parameter vectors',
  'quantifies over data and parameter vectors of any length',
  FF+':generate_contracted_fourier_transforms', FIT+':gen_cost_func', TD+':dipole')

p('C88','Tensors of the tables must be made real or complex before generating formulas',
  'formgen and the Fourier generator raise ValueError on a table entry with at least one parameter; entries without parameters are accepted; after make_tensor_real or make_tensor_complex every entry is accepted, alone or in combination.',
  'for all names in the tables, all combinations of tensors, all angles',
  'covers every table entry with every accompanying tensor',
  FG+':formgen', FF+':generate_contracted_fourier_transforms', TD+':dipole')

p('C89','Fourier transform of measured data is linear',
  'For an interpolation linear in the values, scaling the data by a non-negative factor scales every Fourier coefficient; adding or subtracting two data sets taken at the same angles adds or subtracts their coefficients; subtracting the minimum changes only the coefficients whose index is a multiple of the number of points (at the usual sizes: the constant one), by exactly the minimum, if the interpolation also reproduces constants and depends on the angles alone.',
  'for all containers reachable by any history of operations, all linear interpolations, all factors, all orders M',
  'quantifies over every interpolation kind and every data set; a test compares floats on one data set',
  DH+':dat_to_fdat', DH+':DataContainer.scale_data', DH+':dat_add', DH+':dat_subtract', DH+':DataContainer.subtract_min')

p('C90','Filters replace values and nothing else',
  'Applying a filter keeps polarizations, angles, scale, offset and phase shift, and replaces the values of each polarization by the result of the filter on them, in the order in which they are listed; if the filter fails on some polarization, those before it are already filtered and the rest is untouched. A filter acting on each value alone commutes with shifting the angles; one that depends on positions does not in general, since shifting re-sorts the points.',
  'for all containers, all filters including failing ones, all shifts',
  'quantifies over arbitrary functions given by the user, including ones that fail half-way',
  DH+':DataContainer.filter')

p('C91','At a global minimum of the cost the generated gradient is zero',
  'If a parameter vector minimises the generated cost function, all generated gradient components are zero there; in particular at parameters that reproduce the data, and at the parameters from which the data were generated, cost and gradient both vanish.',
  'for all Fourier formulas, all data, all argument lists, all parameter vectors',
  'relates separately generated source files over all real parameter vectors',
  FIT+':gen_cost_func', FIT+':_make_energy_expr', FIT+':_make_denergy_expr')

p('C92','The cost does not depend on the order of the polarizations nor on surplus data',
  'Two Fourier formulas with the same entries, listed in different orders, and two data containers that agree on these polarizations (one of which may hold more of them) give generated cost functions with equal values, whether or not the source is split into pieces.',
  'for all Fourier formulas and data containers, all orders of insertion, all arguments',
  'quantifies over all insertion orders and surplus entries',
  FIT+':gen_cost_func', FIT+':_make_energy_expr', FIT+':_make_energy_expr_list')

p('C93','Simplifying or expanding formulas does not change what they describe',
  'simplify and expand keep the polarizations and the value of every formula at all parameters, add no symbols, and leave sampled data and Fourier data unchanged.',
  'for all formulas, all simplifications that keep values, all parameter values',
  'quantifies over all value-preserving rewritings, including the double-angle ones a simplifier prefers',
  DH+':FormContainer.simplify', DH+':FormContainer.expand', DH+':form_to_fform', DH+':form_to_dat', FT+':_fourier_transform')

p('C94','A formula has the parameters of the tensors and no others',
  'The formulas of formgen contain only the parameters of the tensors given, the sample angle, and what the angle of incidence is written with. The Fourier formulas of fformgen contain only the parameters of the two tensors (and the angle of incidence if it is left symbolic), whatever the number of digits kept. For table entries made real these are exactly the real counterparts map_to_real of the symbols of the tables, so a guess for each of those is enough to fit and the answer names no other parameter.',
  'for all tensors, table entries, angles of incidence, digits, guesses and optimisers',
  'no test can show that a symbol never occurs; the auxiliary symbols of the generation (beam components) are replaced at the end of a long computation',
  FG+':formgen', FF+':generate_uncontracted_fourier_transforms', FF+':generate_contracted_fourier_transforms', UT+':map_to_real', UT+':make_tensor_real', UT+':make_tensor_complex', FIT+':least_squares_fit')
p('C95','The symbolic rotation matrix is the numeric one at every angle',
  'rotation_matrix3symb gives formulas whose value at any angle is the matrix rotation_matrix3 gives there, that is, the right-handed rotation about the axis; the axis is left normalised in the same way, and no symbol but those of the angle occurs.',
  'for all axes, angle expressions and values of the angle',
  'quantifies over all angles and axes',
  UT+':rotation_matrix3symb', UT+':rotation_matrix3')

p('C96','Turning the data, with the rounding of double precision',
  'With the arithmetic that is really carried out (every operation rounded to the nearest double), a phase shift turns each point by the angle given and every stored angle is in [0, 2 pi), in increasing order. False at the end of the circle: a small negative angle is stored as 2 pi, so a point given at 15 degrees and shifted by -10 and -5 degrees ends up last and not first, and a further shift by zero moves it. What holds: any history of shifts turns the data by the sum of the angles up to an explicit bound of a few 1e-15 per shift, the angles stay sorted doubles between 0 and 2 pi included, non-negative angles are reduced exactly, and data given and read in degrees agree up to an explicit bound.',
  'for all lists of points with double angles, all sequences of shifts, all angles',
  'rounding of particular doubles decides it; bounds over all doubles and all histories',
  DH+':DataContainer.phase_shift_data', DH+':DataContainer.get_items')
p('C97','Repeated directions, with the rounding of double precision',
  'A direction that is given twice, as d and as d + 360 degrees, is stored once; directions that differ are all stored. The first half is false in double precision: 1 and 361 degrees are both stored, less than 1e-15 apart. What holds: directions at least 1e-10 degrees apart are never merged, a full circle from 0 to 360 degrees loses exactly its last point, and of angles already in [0, 2 pi) the first at each angle is kept.',
  'for all lists of points',
  'rounding of particular doubles decides it; all sets of directions',
  DH+':DataContainer')

p('C98','Normalizing and scaling, with the rounding of double precision',
  'After normalize_data(x) the largest value of the data is x. False in double precision: data with the maximum 49 normalized to 1 has the maximum 1 - 2^-53. What holds: the maximum is within 3 * 2^-53 of x, scaling never changes the order of the values, and after n scalings every value and the recorded scale are within a relative error of 2n * 2^-53 of the exact ones, so the recorded scale reconstructs the data to that accuracy.',
  'for all containers, all factors and all numbers of scalings up to 2^50, away from numbers below 1e-300',
  'accumulated rounding over histories of any length; a test fixes a tolerance and a few numbers',
  DH+':DataContainer.normalize_data', DH+':DataContainer.scale_data', DH+':DataContainer.get_scale')
p('C99','Subtracting the minimum is exact where it matters',
  'In double precision, after subtract_min the smallest value is exactly 0 and no value is negative, every value is the true difference up to half a unit in the last place (with no loss by underflow), the first recorded offset is exactly minus the minimum, and calling it again changes nothing.',
  'for all containers with doubles as values',
  'all sets of doubles, including subnormal ones',
  DH+':DataContainer.subtract_min', DH+':DataContainer.get_offset')
p('C100','Adding and taking back, with the rounding of double precision',
  'dat_subtract(dat_add(a, b), b) returns a. False in double precision: 1 added to 2^53 is lost. What holds: for values up to B in size the result is within 6 * 2^-53 * B of a, and for counts whose sums stay below 2^52 addition is exact and a comes back exactly.',
  'for all pairs of containers that can be combined',
  'rounding depends on the particular pairs of numbers',
  DH+':dat_add', DH+':dat_subtract')
p('C101','The Fourier transform of data is kept in single precision',
  'dat_to_fdat keeps the precision of the data. False: the coefficients are stored in complex64, so measurements that differ by one part in 10^9 at every angle give the same coefficients, and values beyond 3.4e38 do not survive. What holds: both parts of every stored coefficient are single-precision numbers within a relative error of 2^-24 of the computed ones, and the curve drawn from them is within (2M+1) * 2^-23 of the largest coefficient of the exact curve at every angle.',
  'for all data, interpolations, numbers of frequencies and errors of the double-precision sum',
  'tests compare with tolerances wider than single precision, and on a few data sets',
  DH+':dat_to_fdat', DH+':fdat_to_dat')

p('C102','Values may be substituted in the tensors or in the formulas',
  'Giving parameters values, or expressing them by other parameters, in the tensors before formgen or before fformgen gives the same intensities and Fourier coefficients as substituting in the generated formulas afterwards; generating succeeds for the substituted tensors whenever it does for the original ones.',
  'for all tensors, lists of substitutions made in turn that keep the reality declarations and do not touch the azimuth, and values of the remaining parameters; angle of incidence symbolic or a number',
  'A test substitutes a few numbers in one tensor; substitutions that introduce a symbol replaced later in the same list, and the path through saved files, are seldom exercised.',
  FG+':formgen', FF+':generate_contracted_fourier_transforms', DH+':FormContainer.subs', DH+':fFormContainer.subs')
p('C103','Light from the other side is a half turn of the sample',
  'Reversing the sign of the angle of incidence gives the formulas of the sample turned by half a turn about its normal. So at normal incidence every formula repeats after half a turn and its odd Fourier components vanish, whatever the tensors.',
  'for all tensors, angles of incidence, polarizations, azimuths and parameter values',
  'A test compares numbers for one crystal; a sign error in the plane of incidence keeps all four patterns plausible.',
  FG+':formgen')
p('C104','Each polarization can be analysed alone',
  'Converting or editing a container that holds some of the polarizations of another one succeeds when it does for the whole, and gives the corresponding part of the result: every conversion between data, Fourier data, formulas and Fourier formulas, scaling, phase shifts and filters of data (normalizing and subtracting the minimum look at all polarizations by design). False for form_to_dat: a formula that does not depend on the azimuth is accepted together with one that does and refused alone; proved when the part still varies.',
  'for all containers, subsets of their polarizations, orders, numbers of points and parameters',
  'tests use fixed sets of polarizations; the failure needs a polarization without azimuthal dependence on its own',
  DH+':dat_to_fdat', DH+':fdat_to_dat', DH+':form_to_fform', DH+':fform_to_form', DH+':fform_to_fdat', DH+':fform_to_dat', DH+':form_to_fdat', DH+':form_to_dat', DH+':DataContainer')
p('C105','Loading data files gives what the files hold',
  'read_csv succeeds exactly when every row starts with two numbers and returns them in order; the first other row decides between IndexError (blank row or a single number) and ValueError. load_data gives one polarization per file name, in order, holding the points of that file with angles converted and reduced into one turn, exactly those points when they are in order already; it succeeds exactly when the units are known and every file is readable and not empty, and otherwise the first unreadable file decides the exception. load_data_and_dark_subtract gives signal minus background at each angle, each file set in its own unit, and refuses different polarizations without reading any file.',
  'for all file contents, file names, units and meanings of number texts',
  'tests load a few fixed files; columns exchanged, the wrong unit for the dark files or the opposite sign of the difference need not show in them',
  DH+':read_csv', DH+':load_data', DH+':load_data_and_dark_subtract')
p('C106','The mean signal does not depend on where the turn starts',
  'Shifting equally spaced data by any angle before dat_to_fdat leaves the zeroth Fourier coefficient (the mean signal) unchanged. Refuted: between the last measurement and the first one of the next turn the samples are extrapolated, not interpolated. With linear interpolation a shift by a less than the spacing changes the mean by exactly a/(2 pi) times the second difference of the data across the seam; with the default cubic kind it changes too. What dat_to_fdat transforms in the linear case is the polygon through the measurements of one turn, its first and last side prolonged.',
  'for all data sets and shifts (claim); refuted for linear interpolation and for every interpolator that puts a cubic through four points; the exact change for all equally spaced data and all shifts below the spacing',
  'a test on smooth or symmetric data sees a small or no change, and data that start at angle 0 never reach the extrapolated part',
  DH+':dat_to_fdat', DH+':DataContainer.phase_shift_data')
p('C107','A failing gen_model_func leaves the saved model alone',
  'gen_model_func with a folder replaces the content of that folder by exactly the files of the new model and touches no other folder; without a folder it touches nothing; when it raises, the folder still holds the model saved before, or at least nothing that loads as a model. The last part is refuted: the folder is emptied before the formula is looked at, so a call with an unsuitable formula destroys the saved model, and a call that fails half way leaves a folder that loads without an error as a model whose missing terms are zero. Proved instead: what the folder holds afterwards never depends on what it held before, and every file in it is named after a polarization and frequency of the formula.',
  'for all formulas, sizes, folders and disks (claim); the part about failures is refuted',
  'tests generate into fresh folders and do not provoke failures in the middle',
  FIT+':gen_model_func', FIT+':_fixed_autowrap_model', FIT+':load_model_func')
p('C108','A saved model loads whatever the polarizations are called',
  'A model saved by gen_model_func and loaded by load_model_func from the same folder has the same values for every key of the formula, also when a key holds characters that have a meaning in file name patterns. Refuted: the key is put into a glob pattern unescaped, so a key with brackets finds none of its files and loads without an error as a model that is identically zero, and a key with a star also adds up the terms of other keys. Proved: it holds for keys without star, question mark and opening bracket (and none of which extends another by an underscore), in particular for the four polarizations PP, PS, SP, SS; the pattern of such a key finds exactly the names with its beginning and the ending .so.',
  'for all formulas, chunk sizes, directory orders and file names (claim); refuted for keys with pattern characters',
  'tests use the four polarizations only',
  FIT+':load_model_func', FIT+':_load_func_dict')
p('C109','Real signals have Hermitian Fourier data, and keep them through every operation',
  'The Fourier coefficients in a container belong to a function that is real everywhere exactly when the coefficient at -m is the conjugate of the one at m. This holds for every container made by dat_to_fdat, for the evaluation of a Fourier formula whose function is real at the chosen parameters, for form_to_fform of a formula that is real for real phi, and for the rows of the Fourier generator at all admissible values of the parameters; and it is kept by scaling, normalising and rotating in any order, including calls that fail. For such a container fdat_to_dat discards nothing when it takes real parts, and the least squares cost counts every positive frequency exactly twice: it equals the term at zero plus twice the sum over 1..M.',
  'for all containers, histories, formulas, parameters, interpolators and frequencies',
  'tests compare a few containers and never look at the imaginary part of a series',
  DH+':dat_to_fdat', DH+':fdat_to_dat', DH+':fDataContainer', FIT+':gen_cost_func')
p('C110','For intensities the largest coefficient is the mean, so normalize_fdata normalises the mean',
  'When the signal is real and nowhere negative, its Fourier coefficient at frequency zero is real and no other coefficient is larger in magnitude; for transformed nonnegative equally spaced data it is the mean of the measured values, whatever the interpolation does in between. Every operation keeps this. Then get_maxval returns the largest mean over the polarizations, and normalize_fdata(x) makes that mean x and leaves all others between 0 and x. The rows of the Fourier generator are of this kind. For signals with negative values this is false: after normalising cos(phi) the maximum is 1 and the mean is still 0.',
  'for all containers, histories, data of any length, orders and interpolators exact at their nodes',
  'tests cannot compare all coefficients of all nonnegative functions',
  DH+':fDataContainer', DH+':dat_to_fdat')
p('C111','A model can be generated for every formula a cost can be generated for',
  'gen_model_func succeeds for every formula with symbolic entries and positive chunk size. Refuted for parameters not declared real: sympy leaves their real and imaginary parts unevaluated, the generated C source calls functions that do not exist, and OSError is raised after the folder of a model saved before was emptied, while gen_cost_func accepts the same formula. Proved: the call succeeds exactly when no real or imaginary part is left in the expressions of the model, and raises OSError otherwise; for formulas made of numbers, parameters declared real, sums, products, powers, conjugates and cosines and sines of real expressions there is nothing in the way: an evaluation rule exists that takes all parts, and then the model returns the coefficients.',
  'for all formulas and positive chunk sizes (claim); refuted by a formula with one parameter not declared real',
  'tests use parameters made by the library, which are real',
  FIT+':gen_model_func', FIT+':_make_model_expr', FIT+':_fixed_autowrap_model')
p('C112','Malformed Fourier data and formulas are rejected, well formed ones are kept as given',
  'fDataContainer accepts exactly the iterables whose keys are text and whose values are one-dimensional complex arrays with 2M+1 entries, fFormContainer those with one-dimensional object arrays of 2M+1 numbers and expressions, FormContainer those with expressions; all others raise ValueError (real arrays and arrays of another length included). An accepted container has the keys in the order of their first occurrence, for each key the last value given for it, entry by entry, the order M, scale 1 and phase shift 0.',
  'for every iterable of key/value pairs and every order',
  'the input space is unbounded and repeated keys, wrong lengths or real arrays are easily forgotten in tests',
  DH+':fDataContainer', DH+':fFormContainer', DH+':FormContainer')
p('C113','A crystal of higher symmetry is a special case of a crystal of lower symmetry',
  'When every symmetry operation of one tabulated point group is an operation of another, in the orientations of the tables, then every tensor of the more symmetric entry is a tensor of the less symmetric one, for exactly one choice of its parameters; the isotropic quadrupole tensor is one of every crystal. So a fit with the lower symmetry can always return the higher one. The orientation matters: the dipole tensor of D_3h is no special case of that of D_3, although D_3h contains D_3 with another choice of its twofold axes.',
  'for every pair of entries of the dipole and of the quadrupole table and all values of the parameters',
  'all values of the parameters of all pairs of 32 groups; the tables are written by hand',
  TD+':dipole', TD+':quadrupole')
p('C114','Permutation symmetry is seen in every orientation',
  'A tensor that is symmetric under the exchange of two neighbouring indices, or under all permutations of its indices, still is after transform, for any matrix. So a tensor may be particularized before it is rotated to the orientation of the sample.',
  'for tensors of any rank and dimension over any commutative ring, and every matrix',
  'ranks, dimensions and matrices are unbounded',
  UT+':particularize', UT+':transform')
p('C115','Fourier transformation does not amplify noise',
  'If two data sets have the same angles and their values differ by at most eps, no Fourier coefficient differs by more than eps, and the squared differences of all of them add up to no more than the mean square of the noise. Refuted for unequal angles: with two neighbouring measurements and linear interpolation an error of 1 changes the mean by any amount. Proved for equally spaced angles and any interpolation exact at its nodes; the cost of the true parameters is then at most eps squared per polarization.',
  'for all data, orders and noise (claim); proved for equally spaced angles; refuted for unequally spaced ones',
  'noise is arbitrary and the amplification is unbounded only in the limit of close angles',
  DH+':dat_to_fdat', FIT+':gen_cost_func')
p('C116','A higher Fourier order adds coefficients and changes none',
  'If data or formulas can be transformed to order M2, they can be transformed to every lower order M1, and the coefficients of frequencies up to M1 are the same; whether data can be transformed does not depend on the order at all. So the cost of any values of the parameters can only grow with the order.',
  'for all data, interpolators, formulas and orders',
  'orders and formulas are unbounded',
  DH+':dat_to_fdat', DH+':form_to_fform', FIT+':gen_cost_func')
p('C117','A crystal of lower symmetry fits at least as well',
  'Let every symmetry operation of one tabulated crystal be an operation of another, for the dipole and for the quadrupole tensor. Generate the Fourier formulas of both for the same geometry and fit both to the same data: every value of the cost of the more symmetric crystal is also a value of the cost of the less symmetric one, at some values of its parameters. So its best fit is at least as good, and a better fit by the more symmetric crystal shows that a fit has not converged. This holds with real parameters for both crystals, and with complex parameters for the less symmetric one.',
  'for every pair of crystals of the tables with nested symmetry, all data, angles of incidence, argument lists and ways of generating the cost functions',
  'all data and all values of the parameters; optimizers find local minima only',
  TD+':dipole', TD+':quadrupole', FF+':generate_contracted_fourier_transforms', FIT+':gen_cost_func')
p('C118','A turned crystal fits turned data equally well',
  'Transform both tensors by a rotation by the angle a about the surface normal and generate the Fourier formula: its coefficient of order m is that of the unturned crystal times exp(i m a), and its cost for data shifted by a with phase_shift_fdata equals the cost of the unturned crystal for the unshifted data, at the same values of the parameters. With the angle as a further parameter of the rotation matrix the orientation can be fitted: data shifted by any angle are fitted as well as the data themselves.',
  'for all tensors with real parameters, angles of incidence, rotation matrices (numeric or with real symbols), data and values of the parameters',
  'all angles, data and values; the sign of the shift is easily wrong',
  UT+':transform', FF+':generate_contracted_fourier_transforms', DH+':fDataContainer.phase_shift_fdata', FIT+':gen_cost_func')
p('C119','Signal in orders a crystal cannot produce cannot be fitted',
  'The Fourier formula of a crystal with an n-fold axis along z has, at all values of its parameters, no coefficient of an order that is not a multiple of n, and none above 8. So no value of its cost function is below the power of the data in these orders, which can be computed before any fit.',
  'for all crystals of the tables with such an axis, all tensors with this symmetry, all data and values of the parameters',
  'all data and all values of the parameters; optimizers only sample',
  TD+':dipole', TD+':quadrupole', FF+':generate_contracted_fourier_transforms', FIT+':gen_cost_func')
p('C120','Fixing or tying parameters restricts the fit and does nothing else',
  'Substituting numbers for some parameters of a Fourier formula removes them from its free symbols, and the cost function of the result equals the cost function of the original with these parameters held at the numbers. Substituting expressions in the parameters (a = 2*b) gives a cost function all of whose values are values of the original one, so the constrained fit is never the better one.',
  'for every formula, data set, list of substitutions, order of the arguments and values of the remaining parameters',
  'all formulas, substitutions and parameter values; substitutions act one after the other',
  DH+':fFormContainer.subs', FIT+':gen_cost_func')
p('C121','A scale variable adds nothing to a crystal from the tables',
  'For crystals of the tables, applying apply_arbitrary_scale with a symbol that does not occur in the formula leaves the attainable costs as they are: a cost at a scale that is not negative is a cost without scale (the parameters times the square root of the scale), and a cost without scale is a cost at the scale 1. The scale and the size of the parameters cannot be told apart by a fit.',
  'for all crystals of the tables made real or complex, angles of incidence, data, scale symbols and values of the parameters',
  'all data and parameter values; a degeneracy of the fit shows in no single run',
  DH+':fFormContainer.apply_arbitrary_scale', FF+':generate_contracted_fourier_transforms', FIT+':gen_cost_func', TD+':dipole', TD+':quadrupole')
p('C122','Several angles of incidence side by side',
  'Uncontracted transforms generated under different filename prefixes do not disturb each other, or any other file: in whatever order they are generated, contracting under a prefix gives what was generated last under this prefix, as if nothing else had been in the directory. So any number of angles of incidence can be generated first and each contracted later to the intensity at its angle.',
  'for every sequence of generations (numeric or symbolic angle, prefixes, orders), directory content and tensors',
  'all sequences and prefixes, including prefixes that begin with one another',
  FF+':generate_uncontracted_fourier_transforms', FF+':generate_uncontracted_fourier_transforms_symb', FF+':generate_contracted_fourier_transforms')
p('C123','The reported phase, scale and offset follow the history',
  'After any sequence of calls, failed ones included, the phase shift a container reports is the one it had before plus all shifts asked for in known units, degrees converted; in degrees it is the same number times 180/pi. A function given to filter changes intensities only: scale, offset, phase, keys and angles stay, also when the function fails half way. For Fourier containers the same holds, and where copy has wrapped the shift in a tuple the number inside still follows the calls that succeed.',
  'for every container, history of calls, angle, unit string and user function',
  'all histories and user functions; a test sees a few calls',
  DH+':DataContainer.get_phase_shift', DH+':DataContainer.phase_shift_data', DH+':DataContainer.filter', DH+':fDataContainer.get_phase_shift', DH+':fDataContainer.phase_shift_fdata')
p('C124','Options that a fit sets itself are refused',
  'When the options handed on to the optimiser contain one that the fit already passes (x0, the function, bounds where bounds are given, niter, stepsize), the fit raises TypeError and never runs the optimiser with one of the two values chosen silently.',
  'for every formula, data set, guess, bounds, options and optimiser',
  'all option dictionaries and optimisers',
  FIT+':least_squares_fit', FIT+':least_squares_fit_with_bounds', FIT+':basinhopping_fit', FIT+':basinhopping_fit_with_bounds')
p('C125','Spelling of the polarization names',
  'With normal_to_oblique, only the first two letters of a key count, and their case does not: inputs whose keys spell the same combinations give equal containers. Input with a key that does not begin with two letters among P, p, S, s is refused.',
  'for all inputs, units and keys',
  'all strings as keys',
  DH+':DataContainer.__init__', DH+':DataContainer._coerce_to_oblique_incidence')
p('C126','Fitting with a rounded formula',
  'A file written with ndigits loads as the formula of the file written without, every entry rounded, for a numeric and for a symbolic angle of incidence. At any parameter values the square roots of the two costs differ by at most one unit of the last digit times the sum of the sizes of the products in the formula, and not at all when every number is short enough; so the best parameters of the rounded formula are almost the best of the exact one.',
  'for every tensor pair, number of digits, formula, data set and parameter values',
  'all formulas, digits and parameter values',
  FF+':generate_contracted_fourier_transforms', FIT+':gen_cost_func', FIT+':least_squares_fit')
p('C127','Loading a saved cost function gives what was saved last',
  'After a cost function is saved under a name, loading that name, or fitting with it, uses the function just saved. (False in a process that loaded the name before: the loader returns the library opened then, so a fit to new data is silently a fit to the old data; it stays so until the process ends. True for a name not loaded before in the process.)',
  'for every session of generating, saving, loading and calling, every formula, data set, name and optimiser',
  'all sequences of saves and loads in one process; a test loads each file once',
  FIT+':load_func', FIT+':gen_cost_func', FIT+':least_squares_fit')
p('C128','A cost function can be loaded under the name it was saved under',
  'Whatever path-like name is given as save_filename can be given to load_func or as load_cost_func_filename. (False for a str without a slash, and for a Path without one when multiprocessing is True: the file exists and loading raises OSError. True for Path objects and names with a slash: the next process loads the function, and the fit with it is the fit with a fresh one.)',
  'for every session, name, formula, data set and optimiser',
  'all names and sessions; tests use one absolute name',
  FIT+':load_func', FIT+':gen_cost_func', FIT+':least_squares_fit')
p('C129','A mirror plane fixes the phases of the Fourier coefficients',
  'If both tensors are invariant under a mirror plane through z at the angle a, every coefficient of the generated Fourier formula times exp(-i m a) is real, whatever the parameters; the part of the data that is odd about the plane cannot be fitted, so the cost is never below its power. The crystals of the tables with such a plane are covered, with real and with complex parameters.',
  'for every tensor pair or table entry with a mirror plane, angle of incidence, data set and parameter values',
  'all data and parameter values; a fit that seems poor cannot show that no parameters fit',
  FF+':generate_contracted_fourier_transforms', FIT+':gen_cost_func', TD+':dipole', TD+':quadrupole')
p('C130','A saved model loads as the model that was saved',
  'A model generated into a folder and then loaded from it has the values of the generated model, for any parameters, polarization and frequency, whatever the folder held before. REFUTED within one process: once a model was loaded from the folder, a model saved there later under the same file names is not what loading gives; the old functions come back without a warning. It holds if nothing was loaded from the folder (or from one inside or around it) in this process, and for the next process.',
  'for every formula, chunk size, contents of the disk, and every sequence of generating and loading models before',
  'all histories of a session; a test that saves and loads once per process passes',
  FIT+':gen_model_func', FIT+':load_model_func')
p('C131','Missing values are left out of the extremes and leave the measurements alone',
  'Values that are nan (a data file may contain the text nan) are ignored by get_maxval and get_minval, and normalize_data and subtract_min act on the remaining values as if the missing ones were not there. REFUTED: a polarization whose first value is missing is left out as a whole; if this is the case for all of them, normalize_data returns without an error and sets every measurement to zero, and subtract_min sets it to minus infinity. It holds when every polarization begins with a number. With IEEE arithmetic the outcome for data with maximum zero is also settled: no exception, every zero becomes nan.',
  'for every container of doubles, nan, infinities and signed zeros included',
  'the outcome depends on the position of the missing value; all positions and values are covered',
  DH+':DataContainer.get_maxval', DH+':DataContainer.get_minval', DH+':DataContainer.normalize_data', DH+':DataContainer.subtract_min', DH+':DataContainer.scale_data', DH+':read_csv')
p('C132','At normal incidence SS and SP carry no information beyond PP and PS',
  'With an angle of incidence 0 every row of the generated Fourier formulas is the row of the crossed polarizations seen a quarter of a turn further (coefficient m multiplied by exp(i m pi/2)), and the odd orders vanish. Therefore no parameter values have a cost below half the power of the difference between PP and the turned SS data (plus the same for PS and SP), nor below the power in odd orders; and for data whose SS and SP are copies, as normal_to_oblique makes them, the cost is for all parameters exactly twice the cost of PP and PS alone, so copying does not change which parameters fit best.',
  'for all tensors of the required shapes, all data and all parameter values',
  'a bound below all values of a cost function; tests evaluate it at a few points',
  FF+':generate_uncontracted_fourier_transforms', FF+':generate_contracted_fourier_transforms', FIT+':gen_cost_func', DH+':DataContainer._coerce_to_oblique_incidence')
p('C133','Cost and model functions depend on the numbers in the array only',
  'Called with a numpy array, a compiled cost function or model function returns the value for the numbers the array shows, whatever the type of the array and wherever its elements lie in memory. REFUTED for cost functions: they read doubles one after the other from the first element on, so that a view (such as a column of an array of points), an array of integers and an array that is too short are evaluated at other numbers, without an error. It holds for contiguous arrays of doubles, after astype(float), and for model functions, which convert the array.',
  'for all formulas, data, arrays (buffer, type, position, stride, length) and parameter values',
  'the failure is silent and depends on what lies in memory; every layout is covered',
  FIT+':_load_func', FIT+':load_func', FIT+':gen_cost_func', FIT+':gen_model_func', FIT+':load_model_func')
p('C134','A cost function is either compiled correctly or refused, and a refusal leaves the saved one alone',
  'For every formula and matching data gen_cost_func either returns (and saves) a function that computes the misfit, or raises and leaves a function saved earlier under the same name in place. The first part is proved: a formula without unevaluated real and imaginary parts always gives its cost; in general the outcome is the misfit, or OSError (FileNotFoundError, depending on the compiler), never another function; files of other names are untouched. REFUTED for the second part: when compilation fails the function saved before is lost.',
  'for all formulas, data, argument lists, files on the disk, and for compilers that do and do not accept undeclared functions',
  'whether an expression compiles depends on all of its subexpressions; the failing case has to be reached through sympy and a C compiler',
  FIT+':gen_cost_func', FIT+':_fixed_autowrap', FIT+':_make_energy_func_chunked', FIT+':load_func')
p('C135','A model loaded for several processes is the saved model, wherever and whenever it is called',
  'load_model_func with multiprocessing=True returns a function that computes the model saved in the folder at the time of loading, in every process and at every call. Proved for folders given by their absolute name, from which the process has opened nothing before or in a process started later, as long as no model is saved there again; and a frequency computed once is computed in the same way until the process ends. REFUTED in general: libraries are opened at each call, so after another model is saved in the folder the same function computes some polarizations from the old and some from the new model; and for a model in the working directory, loaded from ".", every call raises OSError, although loading without multiprocessing works.',
  'for all formulas, folders, orders in which folders are listed, and all sessions of generating, loading, calling and starting processes',
  'the outcome depends on the whole history of a process and on the state of the dynamic loader; a test calls the function once, right after loading it',
  FIT+':load_model_func', FIT+':_load_func_dict', FIT+':_load_func', FIT+':gen_model_func')
p('C136','The unit of intensity does not matter to the fit',
  'For a crystal of the tables, fitting Fourier data that were scaled or normalized, or transformed from scaled data, gives the tensors of the unscaled data times the square root of the factor: the cost of tensors larger by the square root is the old cost times the square of the factor, so the best fits correspond one to one. The factor is the one by which the recorded scale was multiplied.',
  'for all crystals of the tables, real or complex tensors, angles of incidence, data, scale factors and normalizations that succeed, linear interpolations, and argument lists',
  'the correspondence is between all minima of two cost functions over all parameter values; a test compares two runs of a numerical minimiser',
  DH+':fDataContainer.scale_fdata', DH+':fDataContainer.normalize_fdata', DH+':DataContainer.scale_data', FIT+':gen_cost_func', FF+':generate_contracted_fourier_transforms')
p('C137','A missing value does not change the Fourier transform silently, and stays in its polarization',
  'If a value of a polarization is missing (nan), dat_to_fdat with the default interpolation makes every Fourier coefficient of this polarization nan. With linear interpolation it either does the same or gives, bit for bit, the coefficients that any other value in this place would give, namely if no sampling angle lies next to it; it does the same whenever the data were taken at the sampling angles. The coefficients of the other polarizations do not depend on it.',
  'for all data, numbers of points, frequencies, orders M, positions of the missing values, and all values of the library functions (exp, linspace, the spline through complete data)',
  'the effect of a nan depends on how it travels through interpolation, products with complex numbers and a sum in floating point; a test would have to try every position of the gap relative to the sampling angles',
  DH+':dat_to_fdat')
p('C138','A fit of simulated data gives back the data',
  'Fourier data are simulated from a Fourier formula with a dictionary of values and fitted with the same formula, with or without bounds (that contain the values). If the optimiser answers, and its answer is the minimum of the function it was given, the dictionary returned by the fit simulates the same data again, coefficient for coefficient, and has one value for every parameter.',
  'for all formulas of order 16, dictionaries, guesses, bounds, options, files, chunked or not, and every optimiser that finds the minimum when it answers; all seven fit functions',
  'it is a statement about the composition of simulation, cost function, optimiser and result dictionary for every formula; a test can only run one optimiser on one formula, and cannot tell an inexact optimiser from a wrong cost',
  FIT+':least_squares_fit', FIT+':least_squares_fit_with_bounds', FIT+':dual_annealing_fit_with_bounds', FIT+':basinhopping_fit', FIT+':basinhopping_fit_with_bounds', FIT+':basinhopping_fit_jac', FIT+':basinhopping_fit_jac_with_bounds', DH+':fform_to_fdat')
p('C139','Noise in the data moves the fitted curve by at most twice its size',
  'Equally spaced measured points are transformed and fitted with a formula by an optimiser whose answer is the minimum of the function it was given. Take any curve of the formula (whose parameters satisfy the bounds) as the true one. The fitted curve is at least as close to the points as the true one; the mean squared distance between the two curves is at most four times the mean squared distance of the true curve from the points; and at every angle the squared distance is at most 4(2M+1) times it. If no point is further than eps from the true curve, that distance is at most eps squared per polarization.',
  'for all formulas, containers with more than 2M equally spaced points per polarization, interpolations exact at the points, guesses, bounds, options, and every optimiser that finds the minimum when it answers; all seven fit functions',
  'it quantifies over every noise, every true curve and every angle at once, through transform, cost, optimiser and result',
  FIT+':least_squares_fit', FIT+':least_squares_fit_with_bounds', FIT+':dual_annealing_fit_with_bounds', FIT+':basinhopping_fit', FIT+':basinhopping_fit_with_bounds', FIT+':basinhopping_fit_jac', FIT+':basinhopping_fit_jac_with_bounds', DH+':dat_to_fdat')
p('C140','The orientation of the sample may be left to the fit',
  'A Fourier formula is shifted by a parameter psi of its own (apply_phase_shift with a symbol) and fitted. If the Fourier data are shifted by an angle a (phase_shift_fdata), every value of the cost is found again at the parameters with a added to psi and the others unchanged, and the best fits of the shifted data are the best fits of the original data with a added to psi. If the measured data are turned before the transform (phase_shift_data, by a multiple of their spacing), the same holds with -a.',
  'for all formulas without psi, data, angles, argument lists with psi anywhere, chunked or not',
  'the sign and the size of the change of psi have to be right for every formula and every data set; a test sees one optimiser run',
  DH+':fFormContainer.apply_phase_shift', DH+':fDataContainer.phase_shift_fdata', DH+':DataContainer.phase_shift_data', FIT+':gen_cost_func')
p('C141','A fit may be started from the result of another fit',
  'The dictionary returned by any of the fit functions (ret.xdict) is a complete guess_dict for the next fit: it is read back as exactly the array the optimiser returned. In a series of fits by the four functions in any order, each started from the dictionary of the one before, with any settings and cost-function files, no result fits worse than an earlier one or than the first guess, if each optimiser returns a point no worse than its start. The same holds if the first fit saves its cost function and the others load it.',
  'for all formulas, data, first guesses and series of fits of any length, all optimisers no worse than their start',
  'the order in which parameters are put into the array and taken out again has to be the same in four functions, and the two cost conventions (square root or not) must agree on which point is better; a test sees one series',
  FIT+':least_squares_fit', FIT+':dual_annealing_fit', FIT+':basinhopping_fit', FIT+':basinhopping_fit_jac')
p('C142','A fit in stages never gets worse when parameters are freed',
  'Numbers are substituted for some parameters of a Fourier formula (subs) and the rest is fitted; then the whole formula is fitted, started from the result together with the numbers ({**ret.xdict, **fixed}). The second result is at least as good as the first, for each of the fit functions, if its optimiser returns a point no worse than its start. The start has a value for every parameter, if the substitution has removed no parameter besides those replaced. The same holds when parameters are tied to others by expressions (b = 2*a) and the second fit is started from the values of these expressions. And for two crystals of the tables, every symmetry of the first a symmetry of the second: whatever values were found for the more symmetric crystal, there is a start for the less symmetric one, complete, from which no fit ends worse.',
  'for all formulas, data, substituted numbers or real expressions, results of the first stage and optimisers no worse than their start',
  'the substitution, the cost functions of two formulas with different parameters and the two dictionaries have to fit together for every formula; a test sees one pair of fits',
  DH+':fFormContainer.subs', FIT+':least_squares_fit', FIT+':dual_annealing_fit', FIT+':basinhopping_fit', FIT+':basinhopping_fit_jac')
p('C143','The cost is the distance of the data from the simulated data',
  'For Fourier data and a Fourier formula fitted to them, the value of the cost function at a list of parameter values is the sum of the squared moduli of the differences between the data and the data simulated with fform_to_fdat at the same values. So the goodness of a fit can be checked without the cost function, and what the result of a fit simulates is no farther from the data than what its start simulates, if the optimiser returns a point no worse than its start.',
  'for all formulas of order 16, matching data, parameter values, chunked or not; all optimisers no worse than their start',
  'two independent paths through the code (compiled cost function, substitution and conversion) have to agree for every formula and value; a test compares a few numbers',
  FIT+':gen_cost_func', DH+':fform_to_fdat', FIT+':least_squares_fit', FIT+':dual_annealing_fit', FIT+':basinhopping_fit', FIT+':basinhopping_fit_jac')
p('C144','make_tensor_complex and make_tensor_real lose no values',
  'If no name it makes is used twice or already belongs to a real symbol of the tensor, the tensor make_tensor_complex returns takes, for real values of its symbols, exactly the values the original takes for complex values of its parameters; which prefixes and suffixes are chosen does not matter. With a clash no values are added, but values can be lost: the same prefix for both parts, or a real symbol named real_x beside a parameter x. make_tensor_real gives exactly the values for real values of the parameters, if no parameter has the name of a real symbol.',
  'for every tensor of expressions, all ordinary names, prefixes and suffixes, every iteration order of the sets',
  'a statement about the set of all values for all assignments; a clash of names raises no error',
  UT+':make_tensor_complex', UT+':make_tensor_real')
p('C145','The number of samples that Fourier data without high orders need',
  'Fourier data of maximal order M of real curves without orders beyond B are given back by dat_to_fdat(fdat_to_dat(f, n), interp, M) exactly when more than M + B samples are taken: then always, and for every smaller number of samples some such data come back changed. Real formulas the lookup table covers have no orders beyond 8, so with more than 24 points dat_to_fdat of form_to_dat equals form_to_fdat.',
  'for all M, B, n, all such data, all covered formulas and values, all interpolators exact at the nodes',
  'a test tries a few M, B and n; below the bound the result is wrong without an error',
  DH+':fdat_to_dat', DH+':dat_to_fdat', DH+':form_to_dat', DH+':form_to_fdat')
p('C146','Data measured on the crystal of a formula identify its patterns',
  'Take a Fourier formula generated for tensors with parameters, and a data container with more than 24 equally spaced noiseless points per polarization of a crystal with such tensors. dat_to_fdat accepts it, the generated cost is zero at the true parameters, and at other parameters it is zero exactly if the four rotational patterns are the same at every angle. So a fit whose optimiser finds the minimum returns parameters with the patterns of the crystal, whichever fitting function is used.',
  'for all tensors with real parameters, angles of incidence, containers, parameter values, and all seven fitting functions without a saved cost function',
  'a test fits one simulated crystal and compares a few numbers; it cannot show that a zero cost at a few points means equal patterns at every angle',
  FF+':generate_contracted_fourier_transforms', DH+':dat_to_fdat', FIT+':gen_cost_func', FIT+':least_squares_fit', FIT+':least_squares_fit_with_bounds', FIT+':basinhopping_fit', FIT+':basinhopping_fit_with_bounds', FIT+':basinhopping_fit_jac', FIT+':basinhopping_fit_jac_with_bounds', FIT+':dual_annealing_fit_with_bounds')
p('C147','A crystal with one parameter is measured up to its sign',
  'If both susceptibilities are multiples of one real parameter, the cost of noiseless data of that crystal vanishes exactly at the true value and at its opposite, provided the crystal gives light at some polarization and angle; otherwise it vanishes everywhere. Each fitting function whose optimiser finds the minimum then returns the parameter up to its sign. For a zincblende crystal (class T_d from the tables, no quadrupole radiation) the sign alone is lost at every angle of incidence strictly between 0 and 90 degrees, and everything at 0.',
  'for all one-parameter tensors, angles of incidence, containers, values, optimisers that find the minimum',
  'a test fits a few crystals; whether another value fits the same data is a statement about all values',
  TD+':dipole', FF+':generate_contracted_fourier_transforms', DH+':dat_to_fdat', FIT+':gen_cost_func', FIT+':least_squares_fit', FIT+':basinhopping_fit', FIT+':basinhopping_fit_jac', FIT+':dual_annealing_fit_with_bounds')
p('C148','Errors of the points bound the errors of the fitted crystal',
  'If more than 32 equally spaced points per polarization are the intensities of a crystal with the tensors of a generated Fourier formula, each up to an error of at most e, then a fit whose optimiser finds the minimum returns parameters whose intensities differ from those of the crystal by at most 23 e at every angle and polarization. With a single parameter, the error of its square times the intensity of the crystal with parameter 1 is at most 23 e; for zincblende that intensity may be taken as the square of the sine of twice the angle of incidence.',
  'for all tensors with real parameters, angles of incidence, containers, errors, parameter values, and all seven fitting functions',
  'a test adds a few random errors to a few crystals; the bound concerns every error and every angle',
  FF+':generate_contracted_fourier_transforms', DH+':dat_to_fdat', FIT+':least_squares_fit', FIT+':least_squares_fit_with_bounds', FIT+':basinhopping_fit', FIT+':basinhopping_fit_with_bounds', FIT+':basinhopping_fit_jac', FIT+':basinhopping_fit_jac_with_bounds', FIT+':dual_annealing_fit_with_bounds')
p('C149','What normal incidence cannot see',
  'For a Fourier formula generated at angle of incidence 0, only the dipole entries with all indices in the plane of the sample, and the quadrupole entries whose gradient index is the normal and whose other indices are in the plane, enter the cost. So the generated cost function gives the same number when the value of a parameter that occurs in other entries only is changed: no data can determine it. If all entries that enter are zero, the cost is the power of the data whatever the parameters. The symbolic formulas of formgen at angle of incidence 0 depend on the same entries, and on the magnetic ones with all indices in the plane.',
  'for all tensors with real parameters, all Fourier data, parameter values, argument orders, chunked or not',
  'a test changes one parameter of one crystal; the claim is about every tensor and every data set',
  FF+':generate_uncontracted_fourier_transforms', FF+':generate_contracted_fourier_transforms', FIT+':gen_cost_func', 'shgpy/formgen.py:formgen')
p('C150','Noiseless data on the curves of symbolic formulas',
  'Let symbolic formulas be converted with form_to_fform, and let data consist of more than 24 equally spaced points per polarization that lie on the curves of the formulas at some parameter values. The generated cost function is zero at those values, and at other values exactly if they give the same curves at every angle. A fit with an optimiser that finds the minimum returns values that give the curves of the data.',
  'for all formulas that are sums of products with powers of sin(phi) and cos(phi) of total order up to 8 (or one product or power of order 2 to 8, or free of phi), all data on their curves where these are real, parameter values, argument orders, chunked or not, and the five fitting functions',
  'a test fits one formula; the claim is that no other values than those with equal curves have zero cost, for every formula',
  DH+':form_to_fform', DH+':dat_to_fdat', FIT+':gen_cost_func', FIT+':least_squares_fit', FIT+':basinhopping_fit_jac')
out = os.path.join(os.path.dirname(os.path.abspath(__file__)), '..', 'properties.jsonl')
with open(out, 'w') as f:
    for x in P:
        f.write(json.dumps(x) + '\n')
print(len(P))
