# Formal model of shgpy: design

Source under study: `/repo` (bfichera/shgpy, python, never executed here).
The properties are in `properties.jsonl`; their status is in `MANIFEST.json`.
Everything machine-checked is in `rocq/theories` (Rocq/Coq 8.16.1, namespace `Verif`).

## 1. How the code is modelled

| layer | model |
|---|---|
| exceptions | `res A := Ok a | Raise e`; `e` names the python exception class. A method that can fail after changing its object returns the state *and* the outcome. `NonFinite` stands for "the result is inf/nan", which those models do not follow further (`NanModel` does, C131). |
| python `dict` | association list with insertion order, `dget`/`dset`/`dpop` |
| python indexing | `py_nth`, negative indices wrap, out of range raises `IndexError` |
| numbers | float64 is idealised as `R` (complex as `C = R*R` of Coquelicot); rounding, overflow, nan are outside the model except where a rounding function is itself the subject (`round`, integer truncation) and in `FloatModel` (C96-C97) and `FloatModel2` (C98-C101), where the angles and the values of a DataContainer are doubles of Flocq, and stored Fourier coefficients are single-precision numbers, rounded to nearest even, without nan and signed zeros (and without overflow of doubles) |
| `x % (2*np.pi)` | `pymod`, built on the floor of the reals |
| `sorted(..., key=)` | stable insertion sort (python's sort is stable, the result of a stable sort is unique) |
| numpy arrays | lists, or, for tensors, a shape and a function from index lists to entries, over an arbitrary carrier with 0, +, * |
| sympy expressions | an abstract syntax tree `expr` (numbers with complex rational value, symbols with name and reality assumption, Add, Mul, Pow with natural exponent, cos, sin, conjugate, re, im), `eval` into `C`; `.args`, `.func`, `.has`, `.free_symbols`, `.subs`, `.xreplace` are structural functions |
| scipy, sympy algorithms (`solve`, `interp1d`, optimisers, `expand`, printer/parser, C compiler) | parameters of the theorem, constrained by an explicit hypothesis stated in the theorem (for example "the interpolator is exact at its nodes"); never axioms |
| files | a map from names to contents; directory listing is any permutation |

Every definition carries a comment naming the file and lines it mirrors.

## 2. Files

Model (each definition cites its source lines), specification (does not mention the model's helpers), proofs, properties:

| area | model | specification | proofs | properties |
|---|---|---|---|---|
| python basics | `PyBase` (exceptions, dictionaries, indexing), `RMod` (modulus), `CBase`, `FourierBase` (complex sums, integrals) | | | |
| DataContainer | `DataModel` | `SpecData` | `DataProofs*` | `PropertiesData` |
| fDataContainer, conversions, tables, plots, heap | `FDataModel`, `MiscModel`, `HeapModel` | `SpecFData`, `SpecMisc`, `SpecHeap` | `FDataProofs*`, `MiscProofs`, `HeapProofs` | `PropertiesFData` |
| tensors, expressions, rotations | `TensorModel`, `Expr`, `UtilModel` | `SpecTensor`, `SpecUtil` | `TensorProofs*`, `ExprProofs`, `UtilProofs`, `RotProofs`, `TensorInst`, `TensorNat` | `PropertiesUtil`, `PropertiesTensor2` |
| FormContainer, fFormContainer, Fourier table | `FormModel`, `LookupTable` (generated by `tools/gen_lookup.py`) | `SpecForm`, `SpecForm2` | `TableProofs`, `FormProofs*`, `FormThms` | `PropertiesForm`, `PropertiesForm2` |
| formgen | `FormgenModel` | `SpecFormgen` | `FormgenProofs*`, `TrigPoly`, `FormgenPhys`, `FormgenTables`, `FormgenThms*` | `PropertiesFormgen` |
| fformgen | `FformgenModel` | `SpecFformgen` | `FformgenProofs*`, `FformgenAlg`, `FformgenThms`, `FformgenOrder` | `PropertiesFformgen` |
| fformfit | `FitModel` | `SpecFit` | `FitProofs*` | `PropertiesFit` |
| crystals turned, scaled, mirrored | (uses formgen, tables) | `SpecPhys` | `PhysProofs`, `PhysThms` | `PropertiesPhys` |
| formulas, data and fits together | (uses all of the above) | `SpecPipe` | `PipeProofs`, `PipeThms`, `PipeThms2` | `PropertiesPipe` |
| tables of formulas, rounded formulas | `ViewModel`, `FformgenModel` | `SpecView`, `SpecRound` | `ViewProofs`, `RoundProofs`, `RoundThms` | `PropertiesView` |
| fits against points, shifted, scaled, merged | `FDataModel`, `FormModel`, `FitModel` | `SpecLsq`, `SpecFit` | `LsqProofs`, `LsqProofs2` | `PropertiesLsq` |
| substitution before and after generating | (uses formgen, fformgen, FormModel) | `SpecSubs` | `SubsProofs`, `SubsThms` | `PropertiesSubs` |
| what cannot be told apart; undeclared parameters | (uses formgen, fformgen, FitModel) | `SpecSym` | `SymProofs`, `SymProofs2`, `Printer` | `PropertiesSym` |
| polarizations one by one | (uses DataModel, FDataModel, FormModel) | `SpecLocal` | `LocalProofs` | `PropertiesLocal` |
| data files | `ReadModel` (and the loaders of FDataModel) | `SpecLoad` | `LoadProofs` | `PropertiesLoad` |
| models on disk | `DiskModel` (step by step version of gen_model_func of FitModel) | `SpecDisk`, `SpecDisk2` | `DiskProofs`, `DiskProofs2` | `PropertiesDisk` |
| file name patterns | `GlobModel` | `SpecGlob` | `GlobProofs`, `GlobProofs2` | `PropertiesGlob` |
| real signals, intensities | (`FDataModel`, `FitModel`, `FformgenModel`) | `SpecHerm`, `SpecMean` | `HermProofs`, `MeanProofs` | `PropertiesHerm` |
| parts of model expressions | (`FitModel`, `DiskModel`) | `SpecParts` | `PartProofs` | `PropertiesParts` |
| accepted input | (`FDataModel`, `FormModel`) | `SpecAccept` | `AcceptProofs` | `PropertiesAccept` |
| subgroups, permutation symmetry | (`TensorDefs`, `TensorModel`, `UtilModel`) | `SpecSymmetry` | `SymmetryProofs` | `PropertiesSymmetry` |
| noise | (`FDataModel`, `InterpModel`) | `SpecNoise` | `NoiseProofs` | `PropertiesNoise` |
| orders | (`FDataModel`, `FormModel`) | (`SpecFData`, `SpecFit`) | `OrderProofs` | `PropertiesOrder` |
| linear interpolation | `InterpModel` | `SpecInterp` | `InterpProofs*` | `PropertiesInterp` |
| linear transforms and filters | `FDataModel`, `DataModel` | `SpecLin` | `LinProofs`, `LinProofs2` | `PropertiesLin` |
| parameters of generated formulas; symbolic rotations | `ParamModel`, `RotSymbModel`, `FformgenModel` | `SpecParam`, `SpecRot` | `ParamProofs*` | `PropertiesParam`, `PropertiesRotSymb` |
| angles in double precision | `FloatModel` | `SpecFloat` | `PiBounds`, `FloatProofs`-`FloatProofs4` | `PropertiesFloat` |
| values in double precision, coefficients in single precision | `FloatModel2` | `SpecFloat2` | `FloatProofs5`-`FloatProofs8` | `PropertiesFloat2` |
| minima of the cost; rewritten formulas | `FitModel`, `ViewModel` | `SpecFit`, `SpecForm` | `MinProofs` | `PropertiesMin`, `PropertiesRewrite` |
| tensor tables | `TensorDefs` (generated by `tools/gen_tensors.py`) | `SpecGroups` | `GroupProofs*` | `PropertiesTensor` |
| nested crystals | (`TensorDefs`, `FformgenModel`, `FitModel`) | `SpecSymmetry` | `NestProofs` | `PropertiesNest` |
| turned crystals | (`TensorModel`, `FformgenModel`, `FitModel`) | (`SpecPhys`, `SpecFit`) | `TurnProofs` | `PropertiesTurn` |
| forbidden orders | (`FformgenModel`, `FitModel`) | `SpecForbid` | `ForbidProofs` | `PropertiesForbid` |
| constrained fits | (`FormModel`, `FitModel`) | (`SpecSubs`, `SpecFit`) | `ConstrainProofs` | `PropertiesConstrain` |
| several angles | (`FformgenModel`) | `SpecStore` | `StoreProofs` | `PropertiesStore` |
| bookkeeping | (`DataModel`, `FDataModel`, `FitModel`) | `SpecBook` | `BookProofs` | `PropertiesBook` |
| rounded fits | (`FformgenModel`, `FitModel`) | `SpecRoundFit` | `RoundFitProofs` | `PropertiesRoundFit` |
| loading libraries | `LibModel` | `SpecLib` | `LibProofs` | `PropertiesLib` |
| mirror planes | (`FformgenModel`, `FitModel`) | `SpecMirror` | `MirrorProofs` | `PropertiesMirror` |
| loading models | `LibModel2` | `SpecLib2` | `LibProofs2` | `PropertiesLib2` |
| missing values | `NanModel` (values in IEEE 754 arithmetic) | `SpecNan` | `NanProofs` | `PropertiesNan` |
| normal incidence | `FformgenModel`, `FitModel` | `SpecNormal` | `NormalProofs` | `PropertiesNormal` |
| arrays in memory | `ArrayModel` (bit patterns, strides) | `SpecArray` | `ArrayProofs` | `PropertiesArray` |
| compilation of costs | `CompileModel` (around `FitModel.gen_cost_func`) | `SpecCompile` | `CompileProofs` | `PropertiesCompile` |
| models loaded for several processes | `LateModel` (around `LibModel2`) | `SpecLate` | `LateProofs` | `PropertiesLate` |
| the unit of intensity | `FitModel`, `FDataModel` | `SpecUnit` | `UnitProofs` | `PropertiesUnit` |
| the Fourier transform of data with missing values | `GapModel` (around `NanModel`) | `SpecGap` | `GapProofs` | `PropertiesGap` |
| fits of simulated data | `FitModel`, `FormModel` | `SpecLoop` | `LoopProofs` | `PropertiesLoop` |
| fits of noisy data | `FitModel`, `FDataModel` | `SpecTruth`, `SpecLsq`, `SpecLoop` | `TruthProofs` | `PropertiesTruth` |
| fits with an unknown orientation | `FormModel`, `FDataModel`, `FitModel` | `SpecOrient`, `SpecUnit` | `OrientProofs` | `PropertiesOrient` |
| series of fits | `FitModel` | `SpecChain`, `SpecChain2`, `SpecFit` | `ChainProofs`, `ChainProofs2` | `PropertiesChain`, `PropertiesChain2` |
| fits in stages | `FormModel`, `FitModel` | `SpecFree`, `SpecChain`, `SpecSubs` | `FreeProofs` | `PropertiesFree` |
| names read as two symbols | `UtilModel` | `SpecNames` | `NamesProofs` | `PropertiesNames` |
| cost and simulated data | `FormModel`, `FitModel` | `SpecSim`, `SpecPipe` | `SimProofs` | `PropertiesSim` |
| values kept by make_tensor_complex/real | `UtilModel` | `SpecReach` | `ReachProofs` | `PropertiesReach` |
| samples needed without high orders | `FDataModel`, `FormModel` | `SpecBand` | `BandProofs` | `PropertiesBand` |
| data measured on the crystal of a formula | `FformgenModel`, `FDataModel`, `FitModel` | `SpecMeas` | `MeasProofs` | `PropertiesMeas` |
| crystals with one parameter | `FformgenModel`, `FitModel`, `TensorDefs` | `SpecOne` | `OneProofs` | `PropertiesOne` |
| noisy measurements of a crystal | `FformgenModel`, `FDataModel`, `FitModel` | `SpecErr` | `ErrProofs` | `PropertiesErr` |
| entries seen at normal incidence | `FformgenModel`, `FitModel` | `SpecFlat` | `FlatProofs`, `DarkProofs`, `Flat2Proofs` | `PropertiesFlat`, `PropertiesDark`, `PropertiesFlat2` |
| data on the curves of symbolic formulas | `FormModel`, `FDataModel`, `FitModel` | `SpecCurve` | `CurveProofs` | `PropertiesCurve` |

Each theorem in a `Properties*` file is followed by its `Print Assumptions` and by an `Example` showing that its hypotheses
are met by a concrete non-trivial case.

## 3. Plan per property

| id | what is modelled | how it is proved |
|---|---|---|
| C01-C06 | constructor pipeline: checks, unit conversion, coercion, duplicate removal, modulus, sort | induction over the point list; invariants of the sort and of the accumulator of `_remove_duplicates`; refutations by explicit data |
| C07-C11 | methods as state transformers; histories as lists of operations | induction over histories; refutation by a two-step history |
| C12 | `phase_shift_data` | permutation + sortedness: two sorted lists with the same points and distinct angles are equal; modulus arithmetic |
| C13, C14 | `_coerce_to_oblique_incidence` | case analysis over the key set; explicit witness for the order |
| C15 | the four `copy` methods with their actual field assignments | bisimulation over call sequences; witnesses |
| C16, C17 | fDataContainer over `C` | algebra of `cis`; C17 through C18 |
| C18, C19 | `fdat_to_dat`, `dat_to_fdat`; interpolator is any function exact at nodes | geometric sums of roots of unity |
| C20, C21, C59 | `subs` as sequential substitution, container constructor with its default `M=16` | substitution lemma; induction over the substitution list |
| C22 | the literal table | recurrence cos*, sin* checked by computation, lifted to functions, integrals of `cos(k x)`, `sin(k x)` (Coquelicot `RInt`) |
| C23-C25 | `_fourier_transform` on the expression tree | structural proof for sums of products; witnesses for the refuted shapes; `reading` (SpecForm2) says which formula is transformed instead, or that KeyError is raised, for every trigonometric polynomial |
| C26-C28 | form/fform containers | evaluation lemmas |
| C29, C30 | `merge_containers`, `dat_add`, `dat_subtract` | induction over dictionaries |
| C31, C32 | tensors of any rank | induction on the list of pairs, sums over index tuples |
| C33 | swap and solver interface | substitution lemma; solver soundness is a hypothesis |
| C34 | string-keyed substitution | induction over the symbol list |
| C35, C36 | matrices over R | polynomial identities (`nsatz`/`ring` with n.n=1, c^2+s^2=1), Cauchy-Schwarz |
| C37 | `union` | induction |
| C38-C42 | literal tables; groups generated by matrices over Q(sqrt 3) | exact computation in Q(sqrt 3), lifted to R by a ring morphism; completeness through the averaging projector |
| C43-C48 | `gen_S`, `formgen` and the deprecated generators over the expression carrier | naturality of tensor operations under `eval`; finite sums |
| C49-C51, C64 | `_convolve_ftensors` with python index wrap, the h1..h10 pipeline, both contraction stages | support/bandwidth lemmas, Cauchy product of Fourier polynomials, contraction lemmas from C31 |
| C52-C58, C65-C69 | energy expression, gradient, chunks, option dictionary, file system; optimisers are arbitrary functions | Parseval; derivative of an expression tree; list induction; injectivity of file names |
| C70-C73 | no new code: `transform`, `formgen`, `apply_phase_shift` and the tables together | C44 and composition of rotations and reflections in components |
| C74-C77 | no new code: conversions, containers, formgen and cost functions together | uniqueness of Fourier coefficients; C20, C52; C13 with C47; a relation kept by each method |
| C78 | `as_pandas` of the formula containers | list reasoning on labels and cells |
| C79, C80 | `_round_expr` inside the contraction step | induction over expressions; triangle inequality; exact Fourier coefficients of cos^6 for the refutation |
| C81 | `dat_to_fdat` for an arbitrary interpolation, with `gen_cost_func` | discrete orthogonality of the exponentials (Pythagoras on the grid) |
| C82, C83 | shifts and scalings of formula and data, with `gen_cost_func` | factors of equal modulus on both sides of every difference |
| C84 | `merge_containers` on lists of formulas and data | permutation of the renamed rows; induction over the lists |
| C85, C86 | formgen on two sets of tensors | the source polarization sees only `chi_ijk + chi_ikj`; the intensity is a squared modulus |
| C87 | generate, save, load, fit | the series at every azimuth is the intensity (C50), so the coefficients agree (uniqueness of Fourier coefficients); table entries are linear without constant term (checked over the tables), so negating the parameters negates the tensors |
| C88 | `formgen`, `contracted_dict` on table entries | symbols of the tables carry no reality assumption (checked over the tables), outcome lemma of formgen |
| C89 | `dat_to_fdat` with the interpolation as a parameter | entrywise: the discrete sum is linear in the values; a constant sums to zero except at multiples of the number of points (roots of unity) |
| C90 | `filter_data` (state and outcome) | induction over the entries; shifting permutes points, an elementwise map commutes with it; witness for the positional case |
| C91 | generated cost and gradient | the gradient is the derivative of the cost (C65); the derivative at a minimum is zero |
| C92 | `gen_cost_func` with and without pieces | the cost is a sum over keys, invariant under permutation |
| C93 | `form_rewrite`, `form_to_dat`, `form_to_fdat` | the rewriting keeps values; sampled points and integrals depend on values only; witness of a double-angle rewriting |
| C94 | `formgen`, `generate…`, `contracted_dict`, `load_fform`, `map_to_real`, `least_squares_fit` | symbols followed through every operation on arrays; the beam components are substituted away; tables by computation |
| C95 | `rotation_matrix3symb` | entries evaluated one by one |
| C96 | `phase_shift_data`, angle reduction and degrees in doubles | every operation on an angle is rounded; `fmod` shown exact; error bound per shift, added up over a history by induction; the counterexample by exact computation of the doubles |
| C97 | `_remove_duplicates` in doubles | the code's duplicate test on doubles; directions apart stay apart by the error bound; 1 and 361 degrees computed exactly |
| C98 | `scale_data`, `normalize_data` in doubles | each product and quotient is rounded; relative errors added up over a history by induction; the counterexample by exact computation |
| C99 | `subtract_min` in doubles | rounding is monotone and exact at 0; a difference of doubles does not underflow |
| C100 | `dat_add`, `dat_subtract` in doubles | the model of C30 with rounded operations; error bound of two roundings; integers are exact |
| C101 | `dat_to_fdat` with its `complex64` array | the exact sum, an arbitrary error of the double-precision sum, then rounding to 24 bits; the bound carried through `fdat_to_dat` |
| C102 | `formgen`, the fformgen pipeline, `subs` of both containers | both sides denote the radiation formula (or its Fourier coefficients) at the assignment changed in turn by the substitutions |
| C103 | formgen at opposite angles of incidence | reflecting the plane of incidence changes the source by signs that drop out of the squared modulus; periodic trigonometric polynomials have no odd coefficients |
| C104 | all conversions, on a container and on some of its entries | every conversion is a map over dictionary entries followed by a constructor that checks entries one by one; evaluation of Fourier formulas is independent of the values of absent symbols |
| C105 | read_csv, load_data, load_data_and_dark_subtract | induction over the rows and over the list of names; the container is that of C01/C03 and C30 |
| C106 | dat_to_fdat with scipy's linear interp1d (sorted abscissas, clipped searchsorted, extrapolation) | the interpolator takes the values of the polygon (induction over the points); the sum over the grid telescopes; REFUTED claim with four measurements, also for cubic kinds through a linear system |
| C107 | _fixed_autowrap_model with its file operations, load_model_func | the loops refine gen_model_func (induction over keys and frequencies); an invariant on file names; the pieces in one list, for the files a failing call leaves; REFUTED claims by a numeric formula and by a formula that fails at its second polarization |
| C108 | load_model_func with fnmatch patterns (parts of a pattern, matcher) | a pattern without special characters is a prefix and a suffix test (induction), and the meaning of every special character; numerals are plain; then C57; REFUTED by the keys `P[1]` and `P*` |
| C109 | dat_to_fdat, fdat_to_dat, container operations, conversions, generator, cost | a trigonometric sum determines its coefficients (orthogonality), so real everywhere = conjugate-symmetric; induction over the history; the cost is regrouped over +-m |
| C110 | the same, and get_maxval, normalize_fdata | triangle inequality for the discrete transform of nonnegative samples; a series of order M is its own transform on 2M+1 points; induction over the history; counterexample cos |
| C111 | _make_model_expr, _fixed_autowrap_model (sources with `re`, `im` do not compile) | split pieces compile iff the whole does; an explicit evaluation taking real and imaginary parts by recursion over the expression, sound by induction; REFUTED by an undeclared parameter |
| C112 | constructors of fDataContainer, fFormContainer, FormContainer | `dict()` keeps the last value of each key; induction over the iterable |
| C113 | the tables of tensor_definitions | the more symmetric tensor is invariant under the smaller group (C38, C40), whose entry is complete (C39, C40) |
| C114 | transform, particularize | the contraction sums are permuted with the indices; adjacent exchanges generate all permutations |
| C115 | dat_to_fdat, linear interpolation | triangle inequality and Bessel's inequality for the discrete transform; two close measurements refute the general claim |
| C116 | dat_to_fdat, form_to_fform | the entries of the lower order are among those of the higher order, computed alike |
| C117 | tables, utilities, fformgen, fformfit | the parameters of C113 give the same tensors, hence the same intensities (C50) and the same costs (C54); real parameters stay real because the tables have real coefficients |
| C118 | transform, fformgen, fDataContainer, fformfit | the intensity of the turned tensors is the shifted intensity (C50, C70), so every coefficient gets the phase the data get |
| C119 | tables, fformgen, fformfit | periodicity and degree of the intensity (C46, C48, C50) remove coefficients; the misfit in these orders is the data |
| C120 | fFormContainer.subs, fformfit | values after the substitutions (C102), entry by entry in the misfit |
| C121 | tables, fformgen, fFormContainer, fformfit | the entries are linear in the parameters, the intensity quadratic, so every coefficient scales by the square (C50) |
| C122 | fformgen, files as a dictionary | the generators write four names and read none; names under different prefixes differ |
| C123 | DataContainer, fDataContainer | induction over the history; the user function of filter is arbitrary |
| C124 | fformfit | the option dictionary is searched before the optimiser is called |
| C125 | DataContainer.__init__ | the steps after the renaming see only the first two letters in upper case; letters enumerated |
| C126 | fformgen, fformfit | entries rounded one by one (C79); Minkowski's inequality over the entries for the roots of the costs |
| C127 | fformfit.load_func, dlopen | induction over the session on the table of opened libraries; a concrete session for the refutation |
| C128 | fformfit.load_func, dlopen | invariant: no name without a slash is ever opened |
| C129 | fformgen, fformfit, tensor_definitions | a real function even about an angle has real coefficients seen from there; the mirror law of C72 at the level of the Fourier files |
| C130 | fformfit.gen_model_func, load_model_func, dlopen | the loops of loading thread the table of opened libraries; loading again repeats what the table holds; a concrete session for the refutation |
| C131 | DataContainer.get_maxval, get_minval, scale_data, subtract_min, normalize_data with IEEE 754 doubles (Flocq) | python's max keeps its first value when that is nan (induction over the values, then over the polarizations); multiplication by zero and by infinity |
| C132 | fformgen, fformfit | the law of C47 for the Fourier files; a translation multiplies the coefficients by phases; two data for one number |
| C133 | cost_func and model_func as returned by _load_func, gen_model_func, load_model_func, with numpy's layout of arrays | the words read from the pointer begin with the numbers shown (induction over the buffer); exact conversion of integers (Flocq) |
| C134 | gen_cost_func with the compiler (strict or not) and load_func | no construction step brings in real or imaginary parts (structural induction); case analysis of compiler and saving |
| C135 | load_model_func with multiprocessing=True: paths found at loading, libraries opened at every call | invariant over sessions: every library opened from the folder is the one it holds; libraries once opened stay (induction over the session) |
| C136 | fformgen, load, scaling or normalizing, gen_cost_func | intensities are quadratic in the tensors (from C50/C121), costs proportional term by term, minima transported both ways |
| C137 | dat_to_fdat in IEEE arithmetic with nan | nan is absorbing in every operation on the way (case analysis), induction over the sum; for linear interpolation the segments used depend on the angles alone |
| C138 | fform_to_fdat, gen_cost_func, the fits, fform_to_fdat again | the truth has cost 0 (C75), so the answer has cost 0, so it simulates the same data; inversion of the fit functions |
| C139 | dat_to_fdat, gen_cost_func, the fits | the cost is the misfit (C52), the misfit and what the transform loses add up to the distance from the points (C81); triangle inequality, Parseval, Cauchy-Schwarz |
| C140 | apply_phase_shift, phase_shift_fdata, phase_shift_data, gen_cost_func | the misfit of the shifted formula in terms of the coefficients; a common factor of modulus 1 |
| C141 | the four fit functions | the dictionary is the array in the order of the free symbols; induction over the series |
| C142 | subs, the four fit functions | the misfit with parameters held is the misfit of the whole formula at the start of the second fit; C141 |
| C143 | gen_cost_func, fform_to_fdat, the fit functions | both are the values of the coefficients at the parameters (C20, C52); C141 |
| C144 | make_tensor_complex, make_tensor_real | C34 gives one inclusion; for the other the real and imaginary parts are assigned to the new names, found in the list of parameters |
| C145 | fdat_to_dat, dat_to_fdat, form_to_dat, form_to_fdat | the aliasing sum of C19 has one term; for smaller n one wave of order B is aliased to order B - n |
| C146 | fformgen, dat_to_fdat, gen_cost_func, the fits | the series of the patterns has orders up to 8, so 25 points give its coefficients (C145); a zero misfit is equality of the coefficients, hence of the patterns |
| C147 | fformgen, dat_to_fdat, the fit, the table of T_d | intensities are the square of the parameter times a fixed pattern, so C146 compares squares; the pattern of T_d at P in, S out is not dark |
| C148 | fformgen, dat_to_fdat, the fits | the curves of the formula are the intensities, so C139 bounds the distance of the patterns by the distance of the points |
| C149 | fformgen, gen_cost_func, formgen | field, wave vector and rotation keep plane and normal apart; equal patterns have equal Fourier coefficients |
| C150 | form_to_fform, dat_to_fdat, gen_cost_func, the fits | orders of the curves end at 8, so the points give the Fourier coefficients of the curve; these determine it |
| C60-C63 | pandas table, heap of arrays, plot grid, loader | list reasoning; heap separation invariant; witnesses |

A property whose claim is false of the code keeps its claim in `properties.jsonl`; the manifest
then lists a `_refuted` theorem (a witness in the model) together with the strongest true part
(`_partial`), and says so in the note.

### Notes on the formula layer

* Sympy's automatic evaluation (flattening, collecting, `0*x = 0`, ...) is a parameter `ev : expr -> expr` of the model.
  Theorems hold for every `ev` with `sound_ev ev`: it preserves the value under every assignment that respects the
  assumptions of the symbols, and introduces no symbol. `fun e => e` and `zero_ev` (C28) are shown to be sound.
* `_fourier_transform` inspects the tree (`.args`, `.as_powers_dict`); the tree given to it is arbitrary, so the theorems say
  for which trees the answer is right (`covered` in `SpecForm.v`), not which trees sympy builds.
* An array of an fFormContainer carries a flag: object dtype, or numeric dtype when every entry was a python number
  (`np.array([...])` of numbers), because the later calls `.free_symbols` and `.subs` then fail.
* `np.copy(v)` of an expression in `merge_containers` is identified with the expression (in reality a 0-d object array
  that the constructor sympifies again).
* Parameter dictionaries map symbols to complex rationals (floats are rational).

### Notes on formgen

* The whole of formgen.py is modelled over the expression carrier; `sp.expand(sp.expand_trig(e))` is a second parameter `ex`
  with the same soundness hypothesis as `ev`. `theta.is_real` is an arbitrary function.
* The specification (`SpecFormgen.v`) is written in components: rotated tensor, source, transverse part, detected intensity.
* Not modelled: deprecation warnings and logging; broadcasting of arrays of unequal shape (the model raises; it happens only
  for tensors of undocumented rank).

### Notes on fformgen

* Arrays with a frequency axis are lists of slices; `_convolve_ftensors` is modelled with python's negative indices and with
  the order 16 it always uses. Files written by `np.save` are a map from names to arrays.
* `rho |= carries` (FformgenProofs): an array of a given bandwidth whose synthesis is a given function; every step of the
  pipeline preserves it, so the stored arrays synthesise the integrands of the specification.
* Rounding (`ndigits`) replaces every number of the expanded entry by its nearest decimal, ties to even; exponents are natural numbers and stay.

### Notes on fformfit

* Code generation works on its own tree `code`: numbers are arbitrary complex numbers (floats of the data), `KVar i` is
  `xs[i]`. sympy's evaluation is a parameter `kev` with `sound_kev`. A shared library is the list of expressions it was
  generated from; a call is undefined (`None`) when a symbol is left or the array is too short.
* sympy does not know that elements of `xs` are real: the derivative of a conjugate, real or imaginary part of an expression
  containing them stays unevaluated and cannot be compiled (OSError, or its subclass FileNotFoundError). Hence the
  hypothesis `resolves` (C65).
* Real and imaginary parts left in the expressions of a model do not compile either: gen_model_func raises OSError
  (`compiles`). The hypothesis `parts_taken` of C53 says that none are left; C111 shows when it holds. Formulas that
  themselves contain unevaluated real or imaginary parts are accepted by `FitModel.gen_cost_func`; `CompileModel` adds the
  refusal (C134), and the two agree whenever all expressions compile.
* sympy's `srepr` and the evaluation of its output are a printer and a parser of which only `parse (srepr e) = Ok e` is
  assumed; `Printer.v` (std++'s countability, no axioms) constructs such a pair, so the hypothesis can be met.
* Not modelled: the C compiler, caching of libraries already loaded under the same path (in `FitModel`; `LibModel` and `LibModel2` add it, C127, C128 and C130), keys with a
  slash, the numerical method of the optimisers (they are arbitrary functions).

### Notes on the tensor tables

* Point groups are given in `SpecGroups.v` by generating matrices with entries in Z[sqrt 3]/2, in the setting of Boyd,
  Nonlinear Optics (principal axis z; 2-fold axes/mirrors as listed there). `C38_orders` proves that each list generates a
  group of the crystallographic order, `C38_angles` that the axes of rotation have the angles their names say.
* Invariance under the generators is checked by exact computation in Z[sqrt 3] for the coefficients of the parameters and
  lifted to all complex parameter values; completeness is the statement that the averaging projector has its image in the
  span of the table, lifted in the same way.
* `quadrupole` uses another setting than `dipole` for C_3v and D_3 (`other_setting`).

## 4. Trusted base

* Coq's kernel (coqc and coqchk 8.16.1).
* The correspondence between `/repo` and the model, which is by reading; each definition cites its lines.
* The generators in `tools/`, which translate the two literal tables; their output is committed and readable.
* Axioms: only those of Coq's standard library real numbers and function extensionality, as reported by `Print Assumptions`:
  `ClassicalDedekindReals.sig_forall_dec`, `ClassicalDedekindReals.sig_not_dec`,
  `FunctionalExtensionality.functional_extensionality_dep`, and for results through Coquelicot's integrals
  `Classical_Prop.classic`. No axiom is declared here.

## 5. Not modelled

Floating-point numbers (except in C96-C101, C131, C133 and C137; elsewhere real numbers), numpy warnings, logging, timing, pickling format, generated C code and its compiler,
matplotlib drawing, the numerical behaviour of scipy optimisers, the values of scipy's interpolators between nodes other than the linear one
(C106), and sympy's
internal canonicalisation beyond what the individual files state.
