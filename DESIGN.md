# Formal model of rayopt: design

## What this is

A shallow model in Rocq (Coq 8.16.1) of the semantic core of `/repo/rayopt`,
function by function, with theorems for the properties in `properties.jsonl`.
`MANIFEST.json` maps each property to the theorems that carry it.

## Conventions of the model

* Python functions become total Gallina functions.  Exceptions are values
  (`option`, or a small error type), never silently totalised away.
* Floating point numbers are idealised: scalars are elements of the real
  field `R` (geometry, paraxial and Gaussian optics) or of an arbitrary
  commutative ring (polynomial arithmetic).  Rounding is **not** modelled.
* NaN/inf: every square root and division whose argument is not known to be
  good goes through `fsqrt`/`fdiv` (Base.v), which return `None` for "not a
  finite number".  A vectorised numpy operation on an (n, 3) array of rays is
  modelled per ray; rays do not interact except where said.
* Fixed width integers (the `unsigned short` tables of the polynomial code) are
  modelled with explicit wrap-around modulo 2^16 where it matters.
* Mutable objects are records; a method that mutates is a function from record
  to record.  Aliasing is modelled only where it is the point of a property
  (dictionary mutated by `make`, caches).
* numpy `allclose` tolerances are modelled literally
  (`|a-b| <= 1e-8 + 1e-5*|b|`).
* External solvers and readers (scipy newton/brentq/minimize, numpy eig/roots,
  griddata, random numbers, quadrature nodes, number parsing, the XOR key
  stream) are Section variables, i.e. universally quantified oracles; what a
  theorem needs of them is one of its hypotheses.

Theories: `Base` (finite float operations, list lemmas), `Vec` (3-vectors and
3x3 matrices), `Cx` (complex numbers), then per Python module one or more
`*Model.v` files without proofs, proof libraries, and `Props*.v` files with the
final theorems, their `Print Assumptions` and the examples that show the
hypotheses can be met.  A theorem named `..._refuted` states a case in which
the natural claim is false of the model; section "Findings" lists them in words.

## Trusted base

* The Coq 8.16.1 kernel.
* Axioms: only those of the standard library's real numbers, functional
  extensionality and classical logic, listed per theorem at the end of this
  file.  The purely discrete theorems are closed under the global context.
* The faithfulness of the hand translation: each definition cites file and lines.

## Properties: what is modelled and how it is proved

| id | property | modelled | method | status |
|----|----|----|----|----|
| C01 | The monomial enumeration of the polynomial tracer is complete and duplicate free | `simplex_iter`, `simplex_size` | lists of nat; soundness, completeness, no duplicates by induction on d and m; size by induction | proved |
| C02 | Monomial index <-> exponent tables are inverse to each other | `simplex_enum` with 16 bit wrap | tables as lists/functions, inverse from NoDup; wrap witness from the size alone | proved |
| C03 | Multiplying two truncated polynomials is polynomial multiplication up to the truncation order | `simplex_idx`, `simplex_mul` over a ring | specification: convolution over exponent vectors; loop = sum over pair table; ring laws from the specification | proved |
| C04 | The multiplication table capacity used by the three-variable polynomials is exact | capacity formula of `simplex_idx` | pairs of a monomial = product of (k_i+1); discrete AM-GM for three factors | proved |
| C05 | Powers of truncated polynomials obey the power laws when the constant term is one | `simplex_pow` | truncated binomial series, nilpotency, generalised Vandermonde identity | proved |
| C06 | Evaluating a truncated polynomial gives the value of the polynomial | `simplex_eval` with its power table | loop invariant; homomorphism modulo degree | proved |
| C07 | Linear change of variables of a truncated polynomial is substitution | `binom`, `multinom`, `multinom_next`, `supernom_next`, `simplex_transform` | enumeration visits all compositions once; multinomial theorem | proved |
| C08 | Surface frame changes are lossless rigid motions | `TransformMixin.update/from_*/to_*`, `rotation_matrix`, `euler_matrix` | orthogonality by ring identities with sin^2+cos^2=1 | proved |
| C09 | Element placement is kept in normal form by every setter history | setters of `TransformMixin` as a state machine | invariant over operation lists | proved |
| C10 | Refraction obeys Snell's law in vector form | `Interface.refract`, `get_n_mu` | vector algebra, option result | proved |
| C11 | Reflection obeys the law of reflection and is an involution | `Interface.refract` (mirror) | vector algebra | proved |
| C12 | Refraction keeps the ray going to the other side and is reversible | `refract` twice | vector algebra | proved |
| C13 | The conic surface intersection is on the surface, on the right sheet, and found whenever it exists | `Spheroid.intercept`, `Element.intercept`, `surface_sag` | quadratic root algebra; uniqueness of the root | proved |
| C14 | The surface normal is the gradient of the sag function | `surface_sag`, `surface_normal` with Horner loops | derivatives of the standard library, induction over the coefficient list | proved |
| C15 | Vignetted rays stay vignetted; valid rays were inside every clear aperture | `Interface.propagate`, `System.propagate` | invariant by induction over the element list | proved |
| C16 | Traced rays are unit-length directed, lie on the surfaces and travel on straight lines in the lab frame | `System.propagate` with placed elements | invariant by induction; surface laws at every element | proved |
| C17 | Paraxial element and system matrices are symplectic and the Lagrange invariant is conserved | `paraxial_matrix` of elements | 4x4 block matrices, symplectic form, induction | proved |
| C18 | Paraxial matrices of sub-ranges compose | `paraxial_matrices`, `refractive_index` | matrix products over list splits | proved |
| C19 | The paraxial trace is the first-order limit of the exact trace | exact and paraxial step | derivative along a one-parameter family, induction with the chain rule | proved |
| C20 | Rescaling a system scales the geometry and nothing else | `rescale` methods | commutation lemma per element, induction | proved |
| C21 | Reversing a system twice restores it | `reverse` | list surgery | proved |
| C22 | A reversed system is optically the inverse system | `reverse`, `paraxial_matrix` | matrix identity by induction | proved |
| C23 | After updating the conjugates the chief and marginal rays hit centre and rim of the stop | `update_conjugates`, `rays` | algebra over the trace | proved |
| C24 | Solving the last curvature for a focal length delivers that focal length | `focal_length_solve` | algebra over the trace | proved |
| C25 | Paraxial refocusing places the image plane at the axis crossing | `refocus` (paraxial) | algebra over the trace | proved |
| C26 | Pupil specifications convert consistently | pupil and conjugate classes | inverse function identities | proved |
| C27 | Launched rays are unit vectors from the object point through the requested pupil point | `aim`, `map` of conjugates | vector algebra, square roots | proved |
| C28 | Pupil sampling patterns stay inside the unit pupil and report the centre ray | `pupil_distribution` | per pattern; integer arithmetic for the reference index | proved |
| C29 | Serialising and re-loading preserves pupils and conjugates | `dict` and constructors | dictionaries as association lists, round trip by cases | proved |
| C30 | Constructing objects from a description does not change the description | `make`, `make_*` | dictionary with mutation | proved |
| C31 | Refractive index queries reflect the material's current parameters | LRU cache and index queries | history induction | proved |
| C32 | Index/Abbe-number materials reproduce their defining data | `AbbeMaterial`, dispersion formulas | field algebra, list induction, textbook forms | proved |
| C33 | Field cache and start-value interpolation are well defined | `CacheND`, `NearestCacheND`, `LinearCacheND`, `PolarCacheND`; tree query and triangulation are oracles | history induction; sorted list search; barycentric coordinates | proved |
| C34 | Angle and polar sums conserve the total | `angle_sum`, `polar_sum`, `bincount` | floor bounds, exchange of sums; symmetry by permuting the pixels | proved |
| C35 | Lens file descriptions decrypt by the same operation that encrypts them | `zmf_obfuscate`, `zmf_read` | bytes as nat < 256; decoder after encoder | proved |
| C36 | Library refresh is atomic and keeps the catalog current | `Library.load`, `Catalog` freshness | database as list with pending transaction, histories | proved |
| C37 | Optimiser bookkeeping restores or applies the design exactly | `Problem` bookkeeping, `Operand` | state machine with memo table | proved |
| C38 | Gaussian beams: propagation, waists, resonator modes | `propagate_gaussian`, `qin_at`, `make_qi`, eigenmodes, spot and angle figures | complex 2x2 matrices | proved |
| C39 | Path access, pickups and validators behave like lens laws | path store, pickups, validators | association store | proved |
| C40 | Bracketing solver only hands sign-changing brackets to the root finder | `solve_newton`, `solve_brentq`, `aim_chief`, `aim_pupil` control flow | merit function as oracle `R -> option R` | proved |
| C41 | Closing a ring and laying out origins | `origins`, `path`, `close` | list sums | proved |
| C42 | Rotation, Euler angle and quaternion utilities are mutually consistent | transformations.py: quaternions, Euler angles, rotation matrices | polynomial identities, atan2 | proved |
| C43 | The polynomial ray trace is the Taylor expansion of the exact ray trace | `propagate_poly`, `intercept_poly`, `PolyTrace` | algebra in the truncated polynomial ring using C03/C05 | proved |
| C44 | Element groups partition the lens surfaces | `groups` | list induction | proved |
| C45 | Importing a lens table or file yields one element per row with distances attached to the right surface | `system_from_array/text`, `zmx_to_system` | list recursion over rows and commands | proved |
| C46 | Sagittal/meridional basis is an orthonormal frame | `sagittal_meridional` | vector algebra | proved |
| C47 | Geometric refocus is the least-squares best focus | geometric `refocus`, `rms` | quadratic minimisation | proved |
| C48 | Library look-ups are sound and complete | `Library.get`, `get_all` | filters and ordering of a list | proved |
| C49 | Reported cardinal points agree with traced rays | `focal_length`, `focal_distance`, `principal_distance`, `nodal_distance` | traced rays as independent specification | proved |
| C50 | Thermal index change vanishes at the reference temperature | `Thermal.dn_thermal` | multiplied out formula | proved |
| C51 | Aligning a surface makes it deviate the axis as wanted | `System.align`, layout of mirrors and prisms | vector algebra over placements | proved |
| C52 | Rims and edges of lenses | `fix_sizes`, `resize_convex` | store by position, list induction | proved |
| C53 | Reported pupils, magnification and nodal points describe every ray | pupils, magnification, nodal points, launched rays | linear algebra over the paraxial trace | proved |
| C54 | Wave front errors are path length differences to a reference sphere | `opd` | sums of path lengths, frames | proved |
| C55 | The point spread function is a normalised intensity at the stated coordinates | `psf` and transforms | finite Fourier sums over complex numbers | proved |
| C56 | Third order coefficients are the third order of the exact trace | `aberration`, `aberrations`, `transverse3` | third order expansion with explicit remainders, induction over the surfaces | proved |
| C57 | Chromatic coefficients are derivatives of the paraxial image | colour terms of `aberration`, `dispersion` | derivative of the paraxial trace | proved |
| C58 | Aperture, f-number and resolution figures describe the exact cone of light | `numerical_aperture`, `f_number`, `airy_radius`, `number_of_points` | square roots, trigonometry | proved |
| C59 | Apertures are sized to just pass the traced rays | `resize` (paraxial, geometric), `clip` | maxima of lists, trace replay | proved |
| C60 | Stop radius, paraxial rays and clipping rays are launched consistently | `rays_paraxial`, `rays_clipping`, `update_stop` | trigonometry and linear algebra | proved |
| C61 | Glasses of a catalogue file get the dispersion formula and the coefficients of their own record | `agf_read`, `agf_to_material`, `glc_*`, `rii_to_material` | strings, list recursion; formula laws by cases | proved |
| C62 | OSLO lens files become the surfaces they list | `len_to_system`, `olc_to_system` | reverse induction over lines with block invariants | proved |
| C63 | Straightened coordinates are laid onto the folded axis without gaps or stretching | `Trace.from_axis`, paraxial drawing | induction over split points, rigid frames of C08 | proved |
| C64 | Cut outlines show every surface and close every solid | `surface_cut`, `surfaces_cut` | induction over elements with a pending profile | proved |
| C65 | Aberration coefficients of the polynomial trace equal the third order surface sums | `PolyTrace.seidel`, `PolyTrace.buchdahl` | uniqueness of the cubic term: C43 and C56 expand the same exact rays; fifth order: quadratic part of the coefficient polynomials plus the remainder of C43; the witness against m9 is computed exactly over the rationals | proved |
| C66 | Analysis curves: ray fans, spots through focus and field curves mean what their axes say | `Analysis.transverse/spots/longitudinal/__init__`, `rays_line` | lines meeting planes; third order limits of C56 extended with directions | proved |
| C67 | Contrast curve is the overlap of the sheared pupil, encircled energy counts the light near the centroid | `Analysis.opds` (psf centroid, encircled energy, contrast) | Fourier transform of the squared modulus is the autocorrelation; shifts are permutations; azimuthal bins of C34 accumulate | proved |
| C68 | Optical path of neighbouring rays: Hamilton's relation, Malus' theorem, and what the wavefront error says about the ray | `GeometricTrace.propagate/opd`: optical paths of ray families | first order calculus of partial functions; straight lines and surface laws of C16 give one step, induction over elements; smoothness of intercept, normal, refraction; reference sphere by C54 | proved |
| C69 | Lagrange invariant of exact rays, conservation of etendue, Abbe sine condition | `propagate` of families of exact rays; `numerical_aperture` (background) | bracket of two families is unchanged by straight flight, by frames and by the surface law (normals turn symmetrically); volume = Pfaffian of the brackets; sine condition by vanishing derivative | proved |
| C70 | Rotational symmetry of a coaxial system and the skew invariant | `propagate` of coaxial systems | every operation of the trace commutes with linear isometries fixing the axis (conjugated into each frame); skew moment: normals meet the axis | proved |
| C71 | The homogeneous matrices of transformations.py are the maps they are named after | constructors of transformations.py as block matrices | image of a point as a relation (any non-zero fourth coordinate); algebra of unit normals, Gram matrix of the cell, one variable inequalities for the clipping cube | proved |
| C72 | Conic surfaces image their foci without aberration | `propagate` of one conic surface; `geo_trace` of start plane, surface, image plane | the hit point satisfies c r² = z(1+w) with w the scaled normal component, so distances to the foci are linear in z; refraction is characterised by its result (unit, in the plane of incidence, right side); converse: a product of two factors, one excluded by signs | proved |
| C73 | Restarted propagations, eigenrays, beam classification and sizing, freshness of cached pupils | `GaussianTrace.propagate/diverging/confined/is_stigmatic/resize`, `ParaxialTrace.propagate` with start and stop, `track_length`, `eigenrays` (oracle for `np.linalg.eig`), `_focal_length_solve`, `System.pupil` with its dictionary of caches | split of the row list at the restart; eigenrays by the matrix-ray theorem C18 and symplecticity C17; spot radius formula of C38; invariant of the cache over tidy histories | proved |
| C74 | Interpolated and random rotations, quaternions of matrices, and the trackball | `quaternion_slerp`, `random_quaternion` (random numbers as input), `quaternion_from_matrix` (isprecise=False; oracle for `np.linalg.eigh`), `euler_from_quaternion`, `Arcball` and its helpers | relative quaternion in polar form; Hopf coordinates with atan2; 3K = 4pp^T - I for the matrix given to eigh; a drag is a product of two half turns; invariant over event sequences | proved |
| C75 | Matrices taken apart and put together | `compose_matrix`, `decompose_matrix`, `inverse_matrix` (oracle for `numpy.linalg.inv` with the contract that it returns an inverse) | Gram-Schmidt on the columns; orthonormal columns with positive triple product are a rotation; static xyz angles of a rotation by atan2/asin with the gimbal lock case; atan2 is unique on (-pi, pi] | proved |
| C76 | Elementary transformations recognised from their matrix | `reflection_from_matrix`, `rotation_from_matrix`, `scale_from_matrix`, `projection_from_matrix`, `shear_from_matrix` (oracle for `numpy.linalg.eig`: complex eigenpairs of unit length, every real eigenvalue present, two independent vectors if it has such) | a matrix with (A-a)(A-b)=0 has only real eigenvalues a, b; the last row of an affine matrix makes eigenvectors off infinity fixed points; projections of the eigen equation on the axis; explicit witnesses for the failures | proved |
| C77 | Registered point sets are matched as well as any rigid motion can | `affine_matrix_from_points` and `superimposition_matrix` for points in three dimensions (oracles for `numpy.linalg.svd`, `pinv`, `eigh`, `inv`) | trace inequality for orthogonal matrices of either determinant via unit quaternions; Rayleigh quotient of Horn's matrix in an eigenbasis; the translation separates by centring; singular vectors of nonzero singular values lie in the row space; witnesses for the scale and for three points | proved |
| C78 | Catalogue files reach their importer and their entries keep name, section, data and formula | `Catalog.parse` with all `register_parsers`, which importers call `Catalog.load`, `dir_read`, `codevxml_read`, `codevxml_to_material`, `yml_read` (after numpy, XML and YAML have read the files; `int`, `float` and readability of a page are oracles) | suffix and prefix lemmas on strings; descending insertion sort for the longest abbreviation; induction over books with the prefix read so far; induction on the number of refreshes | proved |
| C79 | Plane mirrors and plane layers act as known in closed form | `System.propagate` over plane elements (mirrors, dummies, refracting layers), `Interface.refract`, `intercept` | lab-frame step lemmas; induction over the elements with the image point, the path and the tangential direction as invariants | proved |
| C80 | The Seidel sums obey the stop shift rules, the powers of aperture and field, and the symmetry of the lens | `Spheroid.aberration`, `ParaxialTrace.aberrations`, `propagate`, `rays`, `transverse3`, `System.reverse` | linearity of the trace; the paraxial law of refraction turns the coefficient formulas into identities of rational functions; the rows of the reversed trace by induction along the rows of the forward one; antisymmetric sums | proved |
| C81 | Concentric spheres conserve the moment of a ray, act alike in all directions, and a ball lens turns a ray by twice the difference of two angles | `System.propagate` over concentric spheres: `Spheroid.intercept`, `surface_normal`, `Interface.refract`, `Interface.propagate` | the computed normal is a positive multiple of the direction to the centre on the near half, so refraction conserves the moment; induction over the elements; equivariance of intersection and refraction under isometries in each element's frame; the two Snell angles of the ball by asin; refutation by one ray | proved |
| C82 | Fermat's principle: a traced ray makes the optical path stationary, and a broken line that makes it stationary is traced | `System.propagate`, `Interface.refract`, `Spheroid.surface_normal`, `intercept` | the derivative of a segment length is its direction times the relative velocity of its ends; the law of refraction leaves only the normal component at each corner, and a curve on the surface has none; conversely curves on the surface in every tangent direction force equal tangential components, which with the side fix the refracted direction; induction over the elements | proved |
| C83 | The printed reports show the quantities of the traces under the right labels | `System.base_text` (element table), `Trace.print_coeffs`, `ParaxialTrace.print_trace`, `print_transverse3`, `GeometricTrace.print_trace`, `PolyTrace.print_*`, `Pupil.text`, `Conjugate.text`, `typeletter` | lines as lists of cells, the digits of a number left out; induction over elements and lines; the axis ray as the constant case of the first order lemmas; the monomial table is inverse to the index table (C02); a reader inverts the texts; refutations by small systems | proved |
| C84 | Coddington's equations: narrow pencils at conic surfaces have exactly the sagittal and tangential vergences of the classical equations | `Element.propagate`, `Interface.refract`, `Spheroid.intercept`, `surface_normal` (conics) | the trace is differentiable (Smooth); the law of refraction is differentiated as a vanishing cross product with the surface gradient, then split into the two sections | proved |
| C85 | In folded systems the 4x4 matrices are the first derivative of the exact trace along the bent axis | `Spheroid.paraxial_matrix` with tilt, `System.propagate_paraxial` against `System.propagate`, placements in a plane | axis and tilt rotations of a planar placement are turns about x; one step from the differentiated law of refraction (C84) at the vertex, induction over the elements with the frame that follows the axis ray | proved |
| C86 | The reported focal lengths and principal planes obey the formulas of first order design | `ParaxialTrace.focal_length`, `focal_distance`, `principal_distance`, `propagate`, `Spheroid.paraxial_matrix` (untilted) | 2x2 block of each surface, induction over the surfaces, blocks of two groups multiplied; algebra with the unit determinant | proved |
| C87 | A prism deviates every ray by at least the angle of minimum deviation, which gives its index | `Interface.refract`, `Spheroid.intercept` at plane surfaces, `System.propagate` | one-surface lemma of C79 twice; Gram inequality of the two normals and the inner direction, product of the two normal components bounded by its symmetric value, half angles | proved |
| C88 | An axis is reported stable exactly if rays stay bounded over any number of round trips; two mirrors are stable exactly for 0 < g1 g2 < 1 | `GaussianTrace.stable`, `real`, `m`, `eigenvalues`, `System.paraxial_matrix`, `propagate_paraxial` over repeated passages | powers by induction over the passages; bounded: a definite quadratic form conserved by each passage; unbounded: real eigenvector or the nilpotent part; 2x2 blocks of tilted mirrors | proved |
| C89 | The closed form finite_object_fast is the general change of variables of a finite object | `finite_object_fast`, against `simplex_transform` and `PolyTrace.transform` | loop invariant over the four nested loops; binomial theorem twice; coefficients determined by values (Kronecker substitution, polynomials vanishing on the positive axis) | proved |
| C90 | Light retraces its path through the reversed system | `System.reverse`, `System.propagate`, `Spheroid.intercept`, `Interface.refract` | one surface forward and backward (intersection found on the mirrored sheet, refraction inverted by uniqueness of the refracted direction); induction over the surfaces with the reversed list built by appending | proved |
| C91 | Chains of stigmatic surfaces image without aberration | `System.propagate`, `Spheroid.intercept`, `Interface.refract`, `to_normal`/`from_normal` | stigmatic conjugates of one surface from C72 and the law of reflection; rigid frame changes carry points, directions and wave fronts; induction over the surfaces with the accumulated optical path | proved |
| C92 | ZMX texts are read as written | `zmx_to_system` from the text on: `splitlines`, `strip`, `split`, every command | layouts and spellings as inductive relations, shown equivalent to the character loops by induction on the text; each line against its meaning branch by branch; induction over the lines; round trip of written prescriptions by induction over the rows | proved |
| C93 | The Radau and Lobatto pupil patterns average polynomials exactly | `gr_roots`, `gl_roots`, with `interval_to_circle` and `pupil_distribution` | Legendre polynomials by their recurrence, derivative identities by induction; zeros by interlacing and the intermediate value theorem; exactness by orthogonality and the Christoffel-Darboux kernel; the angles by telescoping harmonics and induction over the powers; averages specified by primitives | proved |
| C94 | Colour: Sellmeier glasses disperse normally, lenses focus blue closer than red, and contact lenses are achromatic exactly if their powers over Abbe numbers cancel | `n_sellmeier` and its four variants, `refractive_index`, `vd`, `dispersion`, with the paraxial trace and `focal_length` | every Sellmeier term falls on both sides of its pole, sum by induction over the terms; lens power as a function of the index; blocks of surfaces in contact by induction, summation by parts into layers | proved |
| C95 | Aspheric intersections: Newton's iteration finds the only intersection nearby and is wrong by the square of its tolerance | `Interface.intercept` with the iteration of scipy.optimize.newton written out, `surface_sag`, `surface_normal` | the normal is the gradient (C14), so the iteration is Newton with the exact slope: quadratic error bound from the mean value theorem, uniqueness by the same, existence by the intermediate value theorem; induction over the steps | proved |
| C96 | Third order of the thin lens: the listed coefficients add up to the textbook functions of power, shape and conjugates | `Spheroid.aberration`, `ParaxialTrace.aberrations`, `propagate` | the two rows of coefficients in closed form for a stop at the lens, other stops by the shift rules of C80; the sums as functions of shape and conjugates, their zeros and minimum by completing the square; existence of the trace of every reshaped lens | proved |
| C97 | One library per process, one library file per user, each public name once | `Library.one`, `__init__`, `find_db` with `os.makedirs` and `shutil.copy` written out, `public` | files as a function from paths; induction over the path for the missing directories, over the calls for the one library, over the decorations (from the end) for the names; connecting to a database is an oracle that may raise | proved |
| C98 | Third order of mirror systems: stigmatic mirrors have the coma of their end slopes, exactly one pair of conics makes two mirrors aplanatic | `Spheroid.aberration` and `paraxial_matrix` for mirrors, `ParaxialTrace.aberrations`, `propagate` | induction over the mirrors: each row of coefficients in closed form for a stop at the mirror, moved by the shift rule of C80; coma telescopes over the mirrors; the conics of the aplanat by solving the two linear equations | proved |
| C99 | Third order of systems of thin lenses and mirrors: Petzval sum, colour, the achromatic eyepiece, what contact lenses cannot correct | `Spheroid.aberration` and `paraxial_matrix` for lens surfaces and mirrors, `ParaxialTrace.aberrations`, `propagate` | induction over the components: a lens adds two rows, a mirror one, each block in closed form for a stop at it (C96, C98) and moved by the shift rule of C80; colour and Petzval columns by a second induction | proved |
| C100 | Materials by name and by dictionary: what Material.make finds and what a reloaded material keeps | `Material.make` of strings, `__str__`, `AbbeMaterial.from_string`, `dict` and constructors of the four material classes, `Thermal.dict`; the library query is that of C48 | induction over strings for splitting and lower case; keywords taken from a dictionary by two lemmas on absent keys, then cases over the attributes; `float` of a string and the parsing of a library item are oracles | proved |
| C101 | Waists of a Gaussian beam behind any system follow from the focal points that rays give | `propagate_gaussian`, `make_qi` and the reported waists, radii and ranges; `paraxial_matrix` of all upright elements | each section acts as a fractional linear map of determinant one (C17) that keeps the beam physical; induction over the elements by C38; two rays give three entries of the matrix and the determinant the fourth | proved |
| C102 | The mode of a resonator of two mirrors has the textbook spots, waist and wave fronts | `eigenmodes`, `is_simple_astigmatic`, `stable`, the reported spots, waists and wave fronts; `paraxial_matrix` of tilted mirrors | the matrix of the round trip of C88, its quadratic for the inverse radius solved for real and imaginary part; `np.roots` is an oracle that gives a pair of conjugate roots, the upper one first | proved |
| C103 | A lens typed as a table or stored as a ZMX file has the focal length its numbers say | `system_from_text`, `system_from_array`, `Material.make` of an entry, `zmx_to_system`, the Spheroids they make, then `paraxial_matrix`, `propagate` and `focal_length` | induction over the lines for the import; the elements are shown to be those the table describes, then C86 applies; the lookup of glass names is an oracle | proved |
| C104 | Brightness of the point spread function: Marechal's and Rayleigh's criteria, and what is left of the contrast | `psf` on a grid and the contrast curve (models of C55 and C67) | the intensity is the squared sum of unit vectors, a double sum of cosines of phase differences; bounds of the cosine by its series, sums compared term by term; equality by a vanishing sum of non-negative terms | proved |
| C105 | The wave front error of a defocused bundle is exactly the defocus term, and the depth of focus follows | `opd` for a general ray (model of C54), `psf` on a grid (C55) | the branch of the sphere intercept solved for every line, rotated into the laboratory; bounds of the sag; the depth of focus from C104; the resampling (`griddata`) enters only as: its values lie between two reported errors | proved |
| C106 | An OSLO lens file has the focal length its lines say | `len_to_system`, `olc_to_system` (models of C62) up to the Spheroids with their distances, then `paraxial_matrix`, `propagate` and `focal_length` | lines that do not concern surfaces are filtered out, then induction over the surfaces; C86 for the focal length; the lookup of glasses and the reading of numbers are oracles | proved |
| C107 | The diffraction pattern and the contrast of a rectangular pupil are the textbook ones | `psf` and its coordinates (model of C55), contrast curve (C67) | the double sum of unit vectors is a product of two geometric sums, closed by telescoping; zeros of the sine at whole multiples; the overlap of the sheared rectangle counted | proved |
| C108 | The reports of whole traces say what rays and beams do | `print_params`, `text` of the paraxial trace, `print_trace` of the Gaussian trace, `__str__` of the polynomial trace, `rayleigh_range` | labels are distinct, so a shown number is the model value; C49, C53 for rays, C38 for beams, C83 for the tables | proved |
| C109 | The unit of length does not change the optics | `System.rescale` with the models of C20 (traces), C54 (wave front error), C55 (psf coordinates), paraxial trace, Seidel coefficients | each function commutes with the scaling, failure cases included; the matrices of the rescaled elements are similar by diag(k,k,1,1); composed with C20 | proved |
| C110 | The wave front error of a coaxial system has the symmetry of its light | `opd` (model of C54) on traces of coaxial systems (C70) | the local map of every element is again about its axis; the sphere intercept commutes with it; an explicit turn between any two launch points of equal radius | proved |
| C111 | The diffraction image has the symmetry of the wave front | `psf` and its coordinates (model of C55) | the double sum reversed or exchanged; a whole number of turns and a unit factor do not change the intensity; conjugation for the opposite error | proved |
| C112 | Systems folded in a plane are symmetric about it | traces (C10-C17 models), `opd` (C54), `update`/`init` placements (C08) for folded systems | in the frame of each element the symmetry is a map about its own axis, so the lemmas of C70 apply; rotations about x keep the x component; examples with a 45 degree mirror | proved |
| C113 | A lens symmetric about its stop images without distortion and coma at unit magnification | `System.reverse` (C21) and the exact trace (C16, C90) of lenses made of a half and its reverse | retracing of C90 for the front half, half turn about the axis for the rear half, joined at the stop; example with an oblique ray from water to air | proved |
| C114 | Two lens groups with a common focal point make a telescope | ParaxTraceModel (`ptrace`, `focal_length`, `principal_distance`) | The 2x2 block of the joined surfaces is written in terms of the focal lengths and focal points that each group reports alone (`joined`); the common focal point makes its lower left entry zero, the determinants of the groups give the other entries. | proved |
| C115 | A lens turned round has the same focal lengths and its focal points and principal planes swapped | `System.reverse` (ReverseModel), ParaxTraceModel (`focal_length`, `focal_distance`, `principal_distance`) | C22 gives the block of the reversed system with its diagonal exchanged; the image plane only adds its distance; the shape of the reversed list gives the distances that the reports use; example with a water lens | proved |
| C116 | Distances along the axis are magnified by the product of the lateral magnifications | ParaxTraceModel (`ptrace`), ParaxialModel (element matrices) | two test rays turn the imaging condition into equations of the 2x2 block; the determinant one of the block gives the rest; the reported focal lengths are read off the block (`reported`, PropsSteps for `C116_measured`); example with two pairs of conjugate planes of a water lens | proved |
| C117 | Clipping removes exactly the rays that miss an aperture, and smaller apertures pass fewer rays | `clip`, `propagate` of elements and system, `geo_trace` (ElementModel) | the direction from clipped to free is C15; conversely the part of the system up to element i is traced alike (`clip_pass` of C59 on the first elements); traces without clipping do not depend on the apertures | proved |
| C118 | Lens groups in sequence image in steps and their magnifications multiply | ParaxTraceModel (`ptrace`), ParaxialModel (element matrices, `refractive_index`) | imaging is equivalent to two equations of the 2x2 block of the surfaces (`imaged_iff`); the block of the joined list is the product of the blocks with the distance of the first surface of the second group exchanged; example with two water lenses | proved |

Scope and limits of each (also in MANIFEST.json):

* C01: All dimensions and orders; completeness, no duplicates, order of degree, advertised size.
* C02: Inverse tables for every table of at most 65536 monomials; the collision beyond is proved as the _refuted theorem (d=1, m=65537).
* C03: Over any commutative ring; construction of the pair table as written; hypothesis simplex_idx = Some is discharged for d=3 by C04.
* C04: Three variables, all orders up to the 16 bit limit; failing dimensions d=1,2,4 shown in the _refuted theorem.
* C05: Real exponents, constant term 1; the general statement is false, see _refuted.
* C06: Any commutative ring; order 1 out-of-bounds write is the _refuted theorem.
* C07: Any dimension and order under the stated 16 bit bound on multinomials; bound holds for d=3, m<=13 (Example), wrap-around at degree 13 is the _refuted theorem.
* C08: All directions, angles, offsets and setter histories; direction image exact outside the allclose band and within 3e-8 inside it.
* C09: All setter histories.
* C10: All unit incident directions, unnormalised normals, positive indices; at surfaces and (C16_surface_laws) along whole traces.
* C11: All unit directions and non-zero normals.
* C12: Reversibility for u0.N >= 0; the unrestricted statement is false, see _refuted.
* C13: Analytic (no aspheric terms) intersection with both root choices; paraboloid with axial ray fails, see _refuted.
* C14: Any number of even aspheric terms, any conic; gradient as directional derivative in every direction.
* C15: Whole traces, any system, any root finder for the aspheric surfaces.
* C16: Whole traces through arbitrarily placed and tilted elements; aspheric surfaces under the hypothesis that the external root finder returns roots.
* C17: Every element, exact characterisation: symplectic iff the tilt azimuth is a multiple of 90 degrees; invariant along every system. Failure otherwise is the _refuted theorem.
* C18: All sub-ranges with start >= 1; start = 0 uses the index after the last element, see _refuted.
* C19: Every centred refracting conic system, every differentiable family of rays through the axis, every element. Exact defect at a mirror and the immersed mirror counterexample are separate theorems. Aspheric surfaces (external root finder) are not covered.
* C20: All conic systems unconditionally; aspheric surfaces for root finders that are scale free (scipy newton is so up to its absolute tolerance). Pupil and conjugate rescaling: C26.
* C21: Exact characterisation of when reversing twice restores the element list; the stop index is not remapped: _refuted.
* C22: All untilted refracting systems of any length with a material on every element but the last. Material-less stops and mirrors: the _refuted theorems.
* C23: All systems tilted about x only, every pupil kind, finite and rectilinear infinite objects, object and image side. Wide angle objects: _refuted.
* C24: Object at infinity, untilted conic last refracting surface. Aspheric last surface: _refuted.
* C25: Every upright system. The virtual image case: exact behaviour in the _refuted theorem.
* C26: All four pupil kinds, both conjugate kinds.
* C27: Every field and pupil coordinate, finite and infinite objects, all projections; the intercept with an aspheric first surface is the root finder oracle. Failures: the _refuted theorems.
* C28: All patterns and ray counts; random numbers and quadrature nodes are oracles with the stated ranges. meridional fans and crosses with 2 or 3 rays: _refuted.
* C29: Pupils, conjugates, spheroid elements and systems, every attribute value. Lost attributes and unreadable dictionaries: _refuted.
* C30: Pupils for every dictionary; pupils and conjugates carrying a type key: _refuted.
* C31: Any history of queries and parameter changes, any cache size. After a parameter change old values are still returned: _refuted.
* C32: Coefficient lists of any length. Custom lines versus vd: _refuted.
* C33: Any history of queries and clears; any sorted table. clear keeping the table, ignored guess, failed queries writing into the table: _refuted.
* C34: Any image size. Radial sums with bins larger than, or not dividing, the circle: _refuted.
* C35: Any key stream and double decoding (oracles); any number of records.
* C36: Any sequence of loads with any file systems and parser failures. Same-size changes, multi-catalog parsers, missing parsers: _refuted.
* C37: minimize is an arbitrary strategy asking for objective, constraints and trace records; operands are arbitrary functions of the system. Refuted: equal limits other than zero are infeasible; negative scales reverse the bounds.
* C38: Complex numbers and 2x2 matrices over R are defined in Cx.v. np.roots is an oracle whose contract (every root solves the polynomial) is a hypothesis of the eigenmode theorem. Confined means the imaginary part of the inverse radius matrix is negative definite. Refuted: beam exactly at a surface, principal-axes form of rotated beams.
* C39: Trees of attributes and list items; Newton is an arbitrary strategy choosing evaluation points. Keys carrying Python source (get_eval, get_func, set_exec, exec) are not modelled. Refuted: pickup chain in the wrong order, two validators of one place.
* C40: Merit functions with NaN as None; newton and brentq are oracles, their contracts are hypotheses of the aiming theorems; traced rays are oracles. Refuted: last round, explicit stop index, small fields.
* C41: Placements with vectors over R; close goes through the offset setter.
* C42: Euler round trip exact outside the code's own gimbal-lock band, 2*_EPS inside; the eigenvector branch of quaternion_from_matrix is C74; isprecise branch wrong for non-positive trace, see _refuted.
* C43: Real arithmetic. Surfaces: untilted spheres and planes, refracting, reflecting or without material. Aspheric terms on a plane: C43_plane_asphere for one intersection, truncation order up to the number of terms plus one. The refuted theorems show the cases that disagree with the exact trace: sphere at zero distance, conic constant, aspheric terms on a curved surface, fewer aspheric terms than the truncation order needs rounds, path behind a mirror, telecentric flag. seidel is C65; printing is C83.
* C44: Elements are Plain or Spheroid as in ElementModel; the generator is modelled by the list it yields.
* C45: tables, text and ZMX command lists of any content; the text of ZMX files is C92. Findings refuted: ZMX stop is not the system stop, unknown glass becomes air, infinite thickness, one long text line drops the others
* C46: Every non-zero direction. Rays parallel to a reference axis other than z: _refuted.
* C47: Real arithmetic, lost rays are None. The plane image element is untilted and stays in front (distance not negative). The refuted theorem shows that the displacement is not optimal for the spread about the weighted centroid.
* C48: Any database and query; case-insensitive names as in the column collation.
* C49: Every upright system, compared with independently traced rays. Different end media: _refuted.
* C50: Default wavelength: _refuted.
* C51: Real arithmetic; hypotheses keep directions out of the tolerance bands of np.allclose, where the stored frame is only approximate. The refuted theorem covers ratio one without a mirror, which is what System.align applies to the object surface.
* C52: Radii are a store by position, infinity is None. The refuted theorem shows the cemented doublet whose convex front stays too small.
* C53: Pupil images, angular magnification, nodal points in air, launched rays and media lookup for centred systems; wide angle object projections are excluded from the launch theorems (see C23).
* C54: Resampling by griddata is not part of opd here. Rays are placed through the exact frames of the elements. Refuted: after=-1 drops every optical path.
* C55: numpy.fft.fft2 is taken to compute the defining double sum; the interpolated wave front is an arbitrary function on the grid with missing pixels.
* C56: Exact trace expanded to third order for centred refracting conics; mirrors and aspheres only through the single surface theorems. Findings: sign of transverse3 follows |chief height|; one aspheric term raises.
* C57: Derivative of the paraxial trace; finding: a material-less element inside dispersive glass resets the dispersion to zero; the object medium is taken as dispersion free.
* C58: Resolution figures as functions of a given paraxial trace. The unit dependence of number_of_points is a finding (refuted theorem).
* C59: Paraxial sizing for upright elements; geometric sizing for any element list, the intercept solver being an arbitrary function.
* C60: update_stop after update_conjugates in air; refuted theorems give the cases where the code loses index or sign.
* C61: Text splitting, AGF reading (exact acceptance condition, lossless distribution of lines), record fields and formula laws for all files and parsers. Refuted parts are stated: AGF formulas 4, 10, 11 have no index; formula 9 adds one to n^2; LD range read from single characters; TD reference temperature and wavelength exchanged; refractiveindex.info formula 8 and multi-term formula 6 compute another index; tabulated-only pages have index one.
* C62: LEN: exact acceptance condition and every element of every accepted file. OLC: every element of every accepted lens. Printing of unknown commands is left out.
* C63: Directions within 1e-8 of the z axis but not on it are excluded by hypothesis (C08 gives the error there). The order of points along the reference ray is assumed, as np.searchsorted does.
* C64: Apertures are finite and profiles have values (no NaN). The flat drawing of curved surfaces without material is a finding (refuted theorem).
* C65: Seidel listing of the polynomial trace = third order sums of the paraxial trace (infinite and finite objects), via the exact rays; the Buchdahl listing does not terminate (refuted), its values are characterised. The fifth order entries are the coefficients of the exact rays in Buchdahl's form (C65_fifth_order), with the sign of m9 reversed (C65_m9_refuted).
* C66: Fans, spots, foci, rays_line and colour shift for all inputs; third order limits for centred conic refracting systems with paraxially linear launch. Two refutations: sign of the colour focus for backward rays, run=True option.
* C67: Contrast = modulus of the autocorrelation of the pupil function; bounds, perfect wavefront, frequency scale; encircled energy entries, monotonicity, limit one. The claim that entry k belongs to the radius it is drawn at is refuted (C67_radius_refuted).
* C68: The general relation takes differentiability of the family and hits on the surface as hypotheses (aspheres included); for closed form surfaces both are derived from one ray that grazes nothing and keeps inside the apertures. The launch of the family is from one point or wave front for the statements on wave fronts.
* C69: Exact ray trace over R (C16 model). C69_lagrange takes the differentiability of the families and arrival on the surfaces as hypotheses (so aspheres via the solver contract are covered); C69_regular, C69_etendue and C69_sine_condition need only a base ray that grazes nothing (conics).
* C70: Exact ray trace over R; Newton oracle is applied to functions, functional extensionality identifies the rotated ones. Coaxial means zero decentre and axis mapped to plus or minus axis by the placement rotation.
* C71: Over R, arguments of three entries. The converse of the comparison is refuted (C71_same_refuted), its reflexivity for perspective clipping matrices too (C71_same_clip_refuted).
* C72: Exact imaging by conics, derived from the traced intersection and refraction; the paraboloid with light parallel to the axis is lost by the code (finding under C13), the other direction is proved here.
* C73: np.linalg.eig is an oracle with the contract that it returns eigenpairs; the aiming of a pupil is an oracle whose result does not depend on the start value.
* C74: numpy.linalg.eigh is an oracle with the contract that it returns unit eigenvectors, among them one of the largest eigenvalue; random numbers are inputs.
* C75: numpy.linalg.inv is an oracle with the contract that it returns an inverse; the singularity test is exact.
* C76: numpy.linalg.eig is an oracle with the contract that it returns unit eigenpairs and every real eigenvalue; the sides where it fails are stated as refuted.
* C77: Points in three dimensions; the singular value, eigenvalue, pseudo-inverse and inverse routines are oracles with contracts as hypotheses at the matrix used. C77_scale_refuted and C77_three_points_refuted record where the docstring is not met.
* C78: Documents are modelled after numpy, XML and YAML have read them. The _refuted theorems record the defects of the importers.
* C79: All systems of plane mirrors and of plane layers with a common normal, any rays, with and without apertures; survival is stated without apertures. Rays against the normal of a refracting surface: C12_against_normal_refuted.
* C80: stop shift and enlargement for whole traces; reversed and symmetric systems for refracting untilted surfaces; colour statements of reversal need dispersion free outer media, as the code starts with dispersion zero
* C81: surfaces met on the half that holds the vertex, as hypothesis; behaviour on the far half refuted
* C82: C82_fermat gives the first variation with free ends, C82_ray_is_stationary with fixed ends, C82_stationary_is_ray the converse
* C83: element table, coefficient, paraxial, geometric and polynomial reports and the texts of pupils and conjugates before number formatting; plain elements, mirror lines and the relative path refuted
* C84: The pencils are arbitrary differentiable families of rays; the curvatures are derived from the surface equation and the law of refraction from the code.
* C85: Includes C85_other_tilt_refuted: the second tilt angle is missing in the matrices.
* C86: power sum, lens maker, two groups, Newton and Gauss forms, all from the figures the trace reports; systems in air as the properties state
* C87: minimum deviation with equality case for skew rays too, and the index formula
* C88: boundedness over all numbers of round trips; confocal resonators and the attribute real refuted
* C89: Function is not called in the repository; C ints unbounded. Equality with simplex_transform under the bound of C07.
* C90: exact trace of the reversed system; mirrors and stops without material are excluded, for those reverse() itself is wrong (C22)
* C91: Every surface used between perfect conjugates, at any aperture and placement. Parallel light on a paraboloid needs the surface given as an asphere with vanishing terms, since the closed form loses the ray (finding under C13). Examples: a Cassegrain telescope with a marginal ray traced to the focus.
* C92: Characters below 128. float, int and Material.make are parameters; a number that is not finite is an error except as distance or radius. Findings: a tab behind a command hides it, surface types are skipped
* C93: The root finder of numpy is an oracle that finds all zeros of polynomials with only real zeros up to the degree needed; that these polynomials have only real simple zeros is proved. Legendre polynomials are exact, scipy computes them in floating point. Odd polynomials in x are refuted (half pupil).
* C94: normal dispersion is proved for positive strengths on intervals free of poles; the contact lens theorem idealises the thicknesses as zero, as does the classical condition
* C95: the library routine scipy.optimize.newton is written from its documentation; reals instead of floats
* C96: thin lens: zero thickness between the two surfaces; vacuum on both sides
* C97: files of other processes, permissions and links are left out; whether an address can be connected to is an oracle
* C98: 
* C99: third order sums of any system of thin lenses and mirrors in air; Petzval and colour sums; eyepiece of one glass; lenses in contact
* C100: names and dictionaries of materials; lookup order, reload, same index in every class; four refutations (single number, source with capitals, slash in a name, thermal coefficients)
* C101: 
* C102: np.roots of a quadratic without real roots is assumed to list the root above the real axis first
* C103: import composed with the paraxial trace; glass names are looked up by an arbitrary oracle; text is already split into words and numbers
* C104: numpy.fft.fft2 is taken to compute the discrete Fourier transform; the resampled wave front is an arbitrary function on the grid
* C105: Resampling of the errors onto the grid (scipy griddata) is not modelled; the depth of focus assumes only that its values lie between reported errors.
* C106: Glass lookup, number parsing, upper() and the glass map are oracles; a LEN thickness above 100 is infinite (C62).
* C107: rectangular pupil; intensity closed form, dark lines, core size, contrast and cut-off
* C108: Lines before numbers are turned into digits. Beams with rotated axes raise in the code (C38_normal_refuted).
* C109: wave front error, image pixels, paraxial figures and third order coefficients of a rescaled system, composed with the trace theorem C20
* C110: the wave front error function of C54 composed with the symmetry of the trace of C70
* C111: symmetries of the transform behind psf; together with C110 the image of a point in a meridional plane is even about it
* C112: Symmetry of traces and wave front errors under every isometry keeping the vertices and normals; systems folded in a plane; placements in the yz plane tilted about x.
* C113: Exact trace of a rear half behind its reverse; uses retracing (C90) and the half turn about the axis (C70).
* C114: Two groups with a common focal point; the report has no focal length exactly there.
* C115: Uses the inverse matrix of C22 and the block of the surfaces.
* C116: Any media, telescopes included.
* C117: The converse of C15 and the monotonicity in the apertures.
* C118: Any media and any position of the intermediate image.

## Findings

Behaviour of the code that contradicts the natural statement of a property.
Each has a `_refuted` theorem (or is the explicit exception of a theorem).

* C02/C06/C07: 16 bit index and multinomial tables wrap for large tables; evaluating an order 1 polynomial writes outside the power table.
* C04: the pair table capacity is too small in 1, 2 and 4 dimensions.
* C05: `simplex_pow` is wrong for constant terms other than one.
* C12: refraction flips the side if the ray comes from behind the normal.
* C13: an axial ray on a paraboloid (k = -1) gives 0/0.
* C17: the paraxial rotation block is not orthogonal unless the azimuth is a multiple of 90 degrees.
* C18: a range starting at 0 uses the index behind the last element.
* C19: mirrors inside glass: paraxial and exact trace disagree.
* C21/C22: `reverse` does not remap the stop; reversing twice is the identity iff the first distance is 0 and the last material is None; stops without material and mirrors break the reversed matrix.
* C23: wide angle chief rays miss the stop.
* C24: `focal_length_solve` ignores the vertex curvature of aspheric terms.
* C25: paraxial `refocus` of a virtual image doubles the height.
* C27: the chief ray of a telecentric object is not normalised; a pupil behind the object maps inner fractions outside; the equidistant projection is not unit and zero on axis; the orthographic one raises; a pupil in the vertex plane gives a frame that is not perpendicular; a pupil without extent in one direction passes no ray, not even the chief ray.
* C28: the meridional reference ray is the lower rim; cross patterns with 2 or 3 rays and empty sagittal fans have a wrong reference.
* C29/C30: nickname unreadable; `update_radius`, tiny tilts and system fields lost; plain elements get type None and raise KeyError; model glass written as "-"; `make` pops the type key, so a second build raises or silently becomes an infinite conjugate.
* C31: cached indices survive a parameter change.
* C32: `vd` is not the defining Abbe number for custom lines.
* C33: constructor and clear guesses are ignored, clear keeps the interpolator, failed queries corrupt start values; the base class raises on every first query although the value is stored.
* C34: radial bins larger than 2 pi lose everything; bins not dividing the circle merge far angles.
* C36: changes that keep the file size are never noticed; multi-catalog reloads leave old catalogs; a missing parser leaves a pending deletion.
* C37: equal limits other than 0 leave no feasible point; negative scales reverse bounds.
* C38: `qin_at` exactly on a surface reports the beam before it; `GaussianTrace.normal` raises for any rotated beam.
* C39: pickup chains in the wrong order are stale; two validators can undo each other.
* C40: a sign change found in the last round is rejected, `maxiter=0` is a NameError; an explicit stop index means one surface less for marginal rays; small fields are not aimed.
* C42: `quaternion_from_matrix(isprecise=True)` is wrong for non-positive trace: the indices are one too large and the first component is uninitialised memory.
* C43: sphere at zero distance treated as plane, conic constant ignored, aspheric terms on curved surfaces use c^2 r^2 for r^2, path behind mirrors subtracted, telecentric-flagged pupil scaled inconsistently, `evaluate` uses the angle as slope. The number of fixed point rounds for aspheric terms is the number of coefficients, too few for a single coefficient at the default truncation order (`C43_rounds_refuted`).
* C44: a mirror inside glass ends a group.
* C45: the ZMX stop is not the system stop; unknown glass stays air; infinite thickness gives NaN offsets; one long text line drops all others.
* C46: the fallback is wrong for reference axes other than z.
* C47: the displacement is not optimal about the weighted centroid.
* C49: immersed focal length and distance lack the index factor.
* C50: `dn_thermal` without wavelength is always 0/0.
* C51: index ratio one without a mirror is not deviated.
* C52: the front of a cemented doublet is left too small.
* C54: `opd(after=-1)` ignores all optical paths.
* C56: the sign of `transverse3` follows the sign of the chief ray height; `aberration` raises for one aspheric term; an empty aspherics list raises in `paraxial_matrix`.
* C57: a plain stop inside glass resets the dispersion; the object medium is taken as dispersion free.
* C58: `number_of_points` ignores `system.scale`.
* C60: immersed objects: `rays_paraxial` takes index times slope for the tangent, `update_stop` divides by the index; sign of the stop negative behind an intermediate image and for images at infinity; `rays_clipping` misses the nearer end for asymmetric pupils.
* C61: AGF formulas 4, 10, 11 have no index method, formula 9 adds 1 to n^2, the LD range is read from single characters, TD exchanges reference temperature and wavelength; refractiveindex.info formula 8 has the wrong sign, formula 6 with several terms pairs the wrong coefficients, tabulated pages have index 1.
* C62: OSLO LEN spacings above 100 become infinite, spacings carry over to later surfaces, radius 0 raises; lines after the last NXT/END are lost. OLC: AST raises, NXT before any TH raises.
* C64: a curved surface without material (curved image or stop) is drawn as a plane.
* C65: `PolyTrace.buchdahl` extends a list with a generator over itself and never returns.
* C65: `PolyTrace.seidel` lists m9 as `s[8]/2`; the expansion of the rays has `-s[8]/2` there (all the other entries m1..m12 agree).
* C66: the longitudinal colour focus loses the sign of the ray direction (backward rays); `Analysis(run=True)` raises since the option hides the method.
* C67: the encircled energy of entry k counts the pixels nearer than k + 1 pixels but is drawn at radius k pixels: one pixel too far in.
* C71: `is_same_transform` takes translations by less than 1e-8 for the identity and says False for a perspective clipping matrix compared with itself (0/0).
* C73: a paraxial propagation restarted behind elements at an azimuth continues a different ray; `track_length` does not count a folded path; `_focal_length_solve` returns n f for plano-convex lenses; `is_stigmatic` ignores the entries mixing the axes; `pupil` ignores keywords after the first call and is stale until `update`; `intensity_max` is a property whose getter takes an argument, so reading it raises TypeError (not modelled).
* C74: `quaternion_slerp` with an odd spin gives quaternions that are not of unit length; `Arcball.setaxes()` without axes cannot remove the constraint (a later constrained click raises); a constraint axis pointing straight away from the viewer gives NaN at the centre; where the perpendicular part of the cursor is hidden, the constrained point is the far one.
* C75: `decompose_matrix` drops a last row (perspective) all of whose entries are at most 2^-50 (`_EPS`, four times the machine epsilon) relative to the last entry without error; such a matrix does not round trip.
* C76: `rotation_from_matrix` of a rotation with 1 - cos a < 1e-8 (a below 1.4e-4 rad) may take a complex eigenvector for the axis and return the angle 0; `projection_from_matrix` raises for a perspective whose viewer is at unit distance from its plane, divides 0/0 for a perspective on a plane through the origin, and for a pseudo perspective returns the viewer moved along the normal as plane point when numpy lists the eigenvalue -1 last; all five functions give infinities when the eigenvector picked for the point is at infinity.
* C77: with `scale=True` the similarity returned is not the least squares one the docstring of `affine_matrix_from_points` promises: the scale is the ratio of the spreads, the best one is smaller; the affine branch accepts three points, for which the null space of the decomposition decides what the result does, up to flattening a triangle that is to be mapped to itself.
* C78: `dir_read` and `glc_read` never call `cat.load`, so the catalogue's file is null and every refresh of the library imports it once more; `dir_read` stores the part names as bytes and `str(bytes)` as section descriptions (`b'...`), and ignores the offset column; `codevxml_to_material` strips two letters from the glass name where `codevxml_read` strips the catalogue identification.
* C81: `Spheroid.surface_normal` uses x^2 + y^2 only, so a steep forward ray that first meets the sphere behind its centre (which neither the choice of root nor `clip` excludes: curvature 1, radius 0.9, start (4.64, 0, 0), direction (-12/13, 0, 5/13)) is refracted about the normal of the mirror point on the near half.
* C83: `typeletter` of a plain `Element` indexes None (only `Spheroid` is registered), so no system or report containing one can be printed; the index column of the element table shows the index of the `mirror` material (1), not that of the medium; the "rel path" of the geometric report subtracts the geometric from the optical path, so the axis ray itself gets (n - 1) d in glass.
* C85: `Spheroid.paraxial_matrix` uses only the first tilt angle for the angle of incidence; a surface tilted by the second angle gets the matrix of the untilted one (the source has a FIXME there), while the exact trace shows the astigmatism.
* C88: a confocal resonator (both g = 0) keeps every ray bounded but its half trace is -1, which `stable` does not count as stable; `real` tests the imaginary part of the square of a real number and is true of every system.
* C92: only a blank separates a ZMX command from its arguments, so a line with a tab there is skipped as an unknown command; the surface type is skipped, so the parameters of a coordinate break become aspheric coefficients.
* C93: the 'radau' and 'lobatto' patterns cover one half of the pupil; their weighted sums are averages only of functions even in x.
* C100: `AbbeMaterial.from_string` provides for one number but raises (the second `if` lacks an `el`), so `Material.make("1.5")` searches the library for a glass of that name; `make` lowers the source, which is compared with case, so sources with capitals are never found; a glass with a slash in its name is not found by `str(glass)`; a material made from its own `dict` has a dictionary in place of the `Thermal` object, so `dn_thermal` and a second `dict` raise AttributeError.
* Outside a property: `Material.make` of a dict is a NameError, of a tuple a TypeError; `sinarctan` of three columns indexes `u[:, 3]`; `Simplex.transform` passes a one-dimensional array and always raises.

## Modelled and not modelled

Modelled (see the citations in the `*Model.v` files): simplex.pyx/simplex_accel
(index tables, product, power, evaluation, transformation), elements.py
(transforms, interception, refraction, propagation, paraxial, polynomial and
Gaussian steps, aberrations, clipping, rescaling, reversal), system.py
(placement, propagation, paraxial matrices, reversal, groups, sizes, solves,
conjugate updates), conjugates.py and pupils, paraxial_trace.py, geometric_trace.py
(launching, refocusing, opd, psf, resize, aiming), poly_trace.py,
gaussian_trace.py, raytrace.py (from_axis), system.py cut outlines, material.py, library.py/library_items.py (load, get, the library file and the one library),
zemax.py (ZMF, ZMX, AGF), oslo.py (GLC, LEN, OLC), rii.py (page to material), formats.py
(tables and text), optimize.py, cachend.py, utils.py (rotations, pupil
patterns, polar sums), analysis.py (data of the curves), transformations.py (rotations, Euler angles, quaternions, interpolation, trackball, constructors, decomposition and recognition of matrices, registration of point sets), codev.py (glass catalogue reader).

Not modelled: plotting calls (axes and styles; the geometry and the curves they draw are),
CodeV sequence files, XML and YAML/JSON concrete syntax, character encodings, SQLAlchemy
internals, scipy/numpy internals (they are oracles), floating point rounding,
multi-threading of cached objects.

## Axioms per theorem (`Print Assumptions`)

Abbreviations: F = `ClassicalDedekindReals.sig_forall_dec`, N = `ClassicalDedekindReals.sig_not_dec`,
X = `FunctionalExtensionality.functional_extensionality_dep`, C = `Classical_Prop.classic`; none = closed under the global context.
All four are axioms of the Coq standard library; nothing else is assumed anywhere.

* C01: C01_enumeration_complete (none)
* C02: C02_index_tables_inverse (none), C02_index_tables_refuted (none)
* C03: C03_product_is_convolution (none), C03_ring_laws (none)
* C04: C04_capacity_exact_three_variables (none), C04_other_dimensions_refuted (none)
* C05: C05_power_laws (C F N X), C05_power_laws_refuted (C F N X)
* C06: C06_evaluation_value (none), C06_evaluation_table_size (none), C06_evaluation_of_product (none), C06_order_one_refuted (none)
* C07: C07_coefficients_determined (F X), C07_transform_composes (F X), C07_transform_identity (F X), C07_transform_is_substitution (none), C07_transform_refuted (none)
* C08: C08_frames_rigid (C F N X), C08_tilt_order (C F N X)
* C09: C09_flags (C F N X), C09_normal_form (C F N X), C09_offset_roundtrip (C F N X), C09_distance_keeps_line (C F N X), C09_direction_angles (C F N X)
* C10: C10_any_ratio (F N X), C10_snell (F N X), C10_snell_surface (F N X)
* C11: C11_reflection (F N X), C11_mirror_surface (F N X)
* C12: C12_other_side_reversible (F N X), C12_against_normal_refuted (F N X)
* C13: C13_on_surface (F N X), C13_found (F N X), C13_missed (F N X), C13_paraboloid_refuted (F N X)
* C14: C14_normal_is_gradient (F N X), C14_domain (F N X)
* C15: C15_valid_inside (F N X), C15_lost_stays_lost (F N X), C15_clip_conservative (F N X)
* C16: C16_unit_directions (C F N X), C16_on_surface (C F N X), C16_on_asphere (C F N X), C16_straight_lines (C F N X), C16_surface_laws (C F N X)
* C17: C17_element_symplectic (F N X), C17_lagrange_invariant (F N X), C17_system_symplectic (F N X), C17_azimuth_refuted (C F N X)
* C18: C18_compose (F N X), C18_index (F N X), C18_ray_is_matrix (F N X), C18_start_zero_refuted (C F N X)
* C19: C19_paraxial_limit (C F N X), C19_mirror_defect (C F N X), C19_immersed_mirror_refuted (C F N X)
* C20: C20_trace_scales (C F N X), C20_surface_scales (F N X), C20_rescale_inverse (C F N X), C20_applies (C F N X)
* C21: C21_twice (C F N X), C21_layout (C F N X), C21_stop_refuted (C F N X)
* C22: C22_inverse (C F N X), C22_stop_refuted (C F N X), C22_mirror_refuted (C F N X)
* C23: C23_stop (C F N X), C23_exit_pupil (C F N X), C23_wideangle_refuted (C F N X), C23_field (C F N X), C23_field_image (C F N X)
* C24: C24_focal_length (C F N X), C24_aspheric_refuted (C F N X)
* C25: C25_in_focus (C F N X), C25_virtual_refuted (C F N X)
* C26: C26_consistent (C F N X), C26_set_radius (F N X), C26_set_own (F N X), C26_update (F N X), C26_update_kept (F N X), C26_rescale (F N X), C26_conjugate_slope (C F N X)
* C27: C27_finite (F N X), C27_finite_chief (F N X), C27_telecentric_chief_refuted (F N X), C27_disc (F X), C27_vignetted (F X), C27_finite_pupil (C F N X), C27_finite_pupil_behind_refuted (C F N X), C27_projection (F N X), C27_equidistant_refuted (F N X), C27_infinite (F N X), C27_pupil_at_vertex_refuted (F N X), C27_scale (F X), C27_finite_bundle (C F N X), C27_finite_bundle_chief (C F N X), C27_infinite_bundle (F N X), C27_equidistant_side (F N X), C27_flat_pupil_refuted (F X)
* C28: C28_exact (F N X), C28_lengths (F N X), C28_grids (F N X), C28_quadrature (F N X), C28_disc (F N X), C28_centre (F N X), C28_count (F N X), C28_meridional_refuted (F N X), C28_small_cross_refuted (F N X), C28_positions (F N X)
* C29: C29_pupil (F X), C29_nickname_refuted (F X), C29_conjugate (F N X), C29_conjugate_refuted (F N X), C29_element (C F N X), C29_element_refuted (C F N X), C29_system (C F N X), C29_fields_refuted (C F N X), C29_degrees (F N X), C29_types (C F N X), C29_terse (F X), C29_shorthand (C F N X), C29_default_system (C F N X), C29_default_fields (C F N X), C29_defaults (F N X), C29_projections (F N X)
* C30: C30_pupil (F), C30_pupil_refuted (F X), C30_conjugate_refuted (F N X), C30_nested (F N X)
* C31: C31_values (F X), C31_unmodified (F X), C31_bounded (F X), C31_stale_refuted (F X)
* C32: C32_gas (F X), C32_gas_offset (F X), C32_conrady (C F N X), C32_herzberger (F X), C32_handbook1 (F N X), C32_handbook2 (F N X), C32_retro (F N X), C32_exotic (F N X), C32_refractiveindex_info (C F N X), C32_lines (F X), C32_units (F X), C32_air (F X), C32_air_vd (F X), C32_abbe (F X), C32_abbe_infinite (F X), C32_vd (F X), C32_other_lines_refuted (F X), C32_sellmeier (F N X), C32_handbook (F N X), C32_schott (C F N X), C32_odd_length (F N X)
* C33: C33_first_value (F N X), C33_interpolator (F N X), C33_interpolator_exact (F N X), C33_table (F N X), C33_total (F N X), C33_solver_values (F N X), C33_guess_refuted (F N X), C33_clear_refuted (F N X), C33_failed_query_refuted (F N X), C33_start (F N X), C33_failed (F N X), C33_nd_first_value (F X), C33_nd_entries (F X), C33_nearest_start (F X), C33_linear_start (F X), C33_linear_exact (F X), C33_abstract (F X), C33_nd_values (F X), C33_nd_stale_refuted (F X)
* C34: C34_angle_conserves (F N X), C34_angle_bins (F N X), C34_angle_axes (F N X), C34_azimuthal (C F N X), C34_radial (C F N X), C34_radial_large_bin_refuted (C F N X), C34_radial_partial_bin_refuted (C F N X), C34_angle_no_gap (F N X), C34_negative_bin (C F N X), C34_angle_symmetry (F N X), C34_angle_reversed (F N X), C34_angle_diagonals (F N X)
* C35: C35_involution (F N X), C35_injective (F N X), C35_roundtrip (F N X), C35_rejects (F N X), C35_version (F N X), C35_stream (F N X), C35_decimal (none)
* C36: C36_atomic (none), C36_replaces (none), C36_invariant (none), C36_current (none), C36_same_size_refuted (none), C36_several_refuted (none), C36_pending_refuted (none), C36_other_mode (none)
* C37: C37_evaluations (F X), C37_reject (F X), C37_accept (F X), C37_objective (F X), C37_inequality (F X), C37_equality (F X), C37_equal_limits_refuted (F X), C37_bounds (F X), C37_default_scale (F X), C37_negative_scale_refuted (F X), C37_variable (F), C37_recorded (F X), C37_cache (F X)
* C38: C38_textbook (F N X), C38_default (F N X), C38_rotated (F N X), C38_refocus (F X), C38_normal_aligned (C F N X), C38_normal_spot (C F N X), C38_normal_refuted (C F N X), C38_eigenmodes (F X), C38_stable (F N X), C38_eigenvalues (F N X), C38_proper (F X), C38_proper_tolerance (F X), C38_sections (F X), C38_composition (F X), C38_system (F N X), C38_rays (F N X), C38_rays_determine (F X), C38_physical (F X), C38_system_physical (F N X), C38_free_space (F X), C38_between (F X), C38_before (F X), C38_at_surface_refuted (F N X), C38_principal (C F N X), C38_normal_values (C F N X)
* C39: C39_get_set (none), C39_set_get (none), C39_set_set (none), C39_get_other (none), C39_commute (none), C39_writable (none), C39_pickups (F X), C39_pickup_order_refuted (F X), C39_solve (F), C39_validate (F X), C39_fix (F X), C39_fix_same_place_refuted (F X), C39_index (none), C39_solve_start (F), C39_pickup_null (none)
* C40: C40_merit_bound (F X), C40_unlimited (F X), C40_unlimited_stop (F X), C40_pupil_step (F X), C40_newton_start (F X), C40_newton (F X), C40_bracket (F X), C40_assertion (F X), C40_positive (F X), C40_last_round_refuted (F X), C40_marginal_at_stop (F X), C40_marginal_at_rim (F X), C40_explicit_stop_refuted (F X), C40_chief (F X), C40_chief_symmetric (F X), C40_small_field_refuted (F X), C40_no_aiming (F X), C40_pupil (F X), C40_unlimited_chief (F X)
* C41: C41_origins (F X), C41_bound (F N X), C41_close (C F N X), C41_mirrored (F X)
* C42: C42_rotation_matrix (F N X), C42_euler_matrix (F N X), C42_euler_round_trip (C F N X), C42_quaternion_algebra (F X), C42_quaternion_matrix (F N X), C42_quaternion_from_matrix_refuted (F N X), C42_uninitialised_refuted (F N X)
* C43: C43_taylor (C F N X), C43_path (C F N X), C43_evaluate (C F N X), C43_finite (C F N X), C43_paraxial (C F N X), C43_zero_distance_refuted (C F N X), C43_conic_refuted (C F N X), C43_path_refuted (C F N X), C43_asphere_refuted (C F N X), C43_telecentric_refuted (C F N X), C43_asphere_hit (F N X), C43_plane_asphere (C F N X), C43_rounds_refuted (C F N X), C43_infinite (C F N X)
* C44: C44_partition (none), C44_runs (none), C44_mirror_refuted (none)
* C45: C45_table (F X), C45_text (F X), C45_shift (none), C45_long_line_refuted (F X), C45_zmx (F), C45_zmx_count (F), C45_zmx_stop_refuted (F), C45_zmx_glass_refuted (F), C45_zmx_infinity_refuted (F)
* C46: C46_frame (F N X), C46_axis_refuted (F N X)
* C47: C47_least_squares (F N X), C47_lost_rays (F X), C47_moves (C F N X), C47_refocus (C F N X), C47_refocus_twice (F X), C47_weighted_refuted (F X)
* C48: C48_sound_complete (none), C48_rows (none), C48_first (none), C48_kinds (none), C48_nocase (none)
* C49: C49_focal_length (F N X), C49_focal_points (F N X), C49_magnification (F N X), C49_immersed_refuted (C F N X)
* C50: C50_thermal_formula (F X), C50_thermal (F X), C50_default_wavelength_refuted (F X)
* C51: C51_align (C F N X), C51_mirror (C F N X), C51_system (C F N X), C51_excidence (F N X), C51_ratio_one_refuted (C F N X)
* C52: C52_resize (F X), C52_rims (F X), C52_doublet_refuted (F X), C52_edge (F N X)
* C53: C53_pupils (F N X), C53_angular_magnification (F N X), C53_nodal_points (F N X), C53_launched (F N X), C53_rescaled_launch (F N X), C53_medium (F), C53_medium_air (F)
* C54: C54_default_sphere (F X), C54_meaning (C F N X), C54_stigmatic (C F N X), C54_reference (F N X), C54_launch (C F N X), C54_after_last_refuted (F N X)
* C55: C55_total (F N X), C55_peak (F N X), C55_shift (F N X), C55_coordinates (F N X), C55_pixels (F X)
* C56: C56_third_order (C F N X), C56_transverse3 (F X), C56_transverse3_sign_refuted (C F N X), C56_petzval (F X), C56_conic (F X), C56_aplanatic (F X), C56_departure (F N X), C56_one_term_refuted (F X)
* C57: C57_chromatic (C F N X), C57_stop_in_glass_refuted (C F N X), C57_transverse (F X)
* C58: C58_aperture (F N X), C58_sine_condition (F N X), C58_f_number (F N X), C58_units (F N X), C58_points (F N X), C58_points_unit_refuted (F N X), C58_f_number_image (F N X), C58_diffraction (F N X)
* C59: C59_paraxial (F N X), C59_passes (F N X), C59_tight (F N X)
* C60: C60_paraxial_rays (F N X), C60_paraxial_rays_immersed_refuted (F N X), C60_stop_object (C F N X), C60_stop_image (C F N X), C60_stop_image_infinite_refuted (C F N X), C60_stop_immersed_refuted (C F N X), C60_stop_sign_refuted (C F N X), C60_clipping_infinite (C F N X), C60_clipping_finite (C F N X), C60_clipping_asymmetric_refuted (C F N X)
* C61: C61_words (none), C61_agf_record (F X), C61_agf_index (C F N X), C61_agf_missing_refuted (C F N X), C61_agf_sellmeier4_refuted (C F N X), C61_agf_range_refuted (F X), C61_agf_thermal_refuted (F X), C61_agf_read (none), C61_agf_accepts (none), C61_agf (C F N X), C61_glc (C F N X), C61_rii (C F N X), C61_rii_retro_refuted (C F N X), C61_rii_tabulated_refuted (C F N X), C61_rii_gas_pairing (C F N X), C61_rii_gas_refuted (C F N X), C61_agf_number (F X), C61_agf_thermal_fields (F X), C61_agf_transmission (F X), C61_agf_rows (none), C61_glc_count (none)
* C62: C62_len (F X), C62_header (F X), C62_len_accepts (F X), C62_olc (F X), C62_thickness_refuted (F X), C62_plane_refuted (F X), C62_stop_refuted (F X), C62_unbound_refuted (F X), C62_carry_refuted (F X), C62_open_refuted (F X), C62_apertures (F X)
* C63: C63_from_axis (C F N X), C63_vertices (F X), C63_vertices_start (F X), C63_isometry (F N X), C63_axis_length (C F N X), C63_paraxial (C F N X)
* C64: C64_cut (F N X), C64_cut_refuted (F N X), C64_closed (F X), C64_outlines (F X), C64_solids_closed (F X), C64_complete (F X), C64_placed (C F N X), C64_cut_plain (F N X), C64_system (C F N X)
* C65: C65_fifth_order (C F N X), C65_seidel_short (F X), C65_m9_refuted (C F N X), C65_seidel (C F N X), C65_coma (C F N X), C65_buchdahl_values (C F N X), C65_extend_self (none), C65_buchdahl_refuted (F), C65_finite (C F N X), C65_buchdahl_signs (F X), C65_buchdahl_short (F)
* C66: C66_transverse (F X), C66_tee (F N X), C66_spots (F X), C66_foci (F X), C66_colour_focus (F N X), C66_colour_focus_refuted (F N X), C66_colour_shift (F), C66_rays_line (F X), C66_distortion (F X), C66_heights (F X), C66_lateral_colour (F X), C66_spherical (C F N X), C66_distortion_limit (C F N X), C66_field_curves (C F N X), C66_options (none), C66_unknown_option (none), C66_run_option_refuted (none), C66_known (none)
* C67: C67_contrast (F N X), C67_frequency (F N X), C67_encircled (C F N X), C67_radius_refuted (C F N X)
* C68: C68_hamilton (C F N X), C68_regular (C F N X), C68_malus (C F N X), C68_ray_aberration (C F N X)
* C69: C69_lagrange (C F N X), C69_regular (C F N X), C69_etendue (C F N X), C69_sine_condition (C F N X)
* C70: C70_symmetric (C F N X), C70_meridional (C F N X), C70_axial (C F N X), C70_skew (C F N X)
* C71: C71_translation (F X), C71_reflection (F N X), C71_rotation (F N X), C71_scale (F N X), C71_parallel (F N X), C71_perspective (F N X), C71_pseudo (F N X), C71_clip_box (F X), C71_clip_frustum (F X), C71_shear (F N X), C71_cell (F N X), C71_concatenate (F X), C71_vector_norm (F N X), C71_angle (C F N X), C71_same (F X), C71_same_refuted (F X), C71_same_clip_refuted (F X), C71_same_entries (F X)
* C72: C72_collimated (F N X), C72_only_conic (F N X), C72_point_source (F N X), C72_mirror_foci (F N X), C72_paraboloid (F N X), C72_aplanatic (F N X), C72_centre (F N X), C72_spot (F N X)
* C73: C73_beam_restart (F N X), C73_ray_restart (F N X), C73_ray_restart_refuted (C F N X), C73_track (F N X), C73_track_refuted (C F N X), C73_eigenrays (F N X), C73_eigenvalues (F N X), C73_second_solve_refuted (C F N X), C73_diverging (F N X), C73_confined (F N X), C73_stigmatic (F N X), C73_stigmatic_refuted (F N X), C73_resize (C F N X), C73_pupil_fresh (F N X), C73_pupil_stale_refuted (F N X)
* C74: C74_slerp (C F N X), C74_slerp_close (C F N X), C74_slerp_scale (C F N X), C74_slerp_zero (C F N X), C74_slerp_odd_refuted (C F N X), C74_random (C F N X), C74_parts (F X), C74_euler_quaternion (C F N X), C74_from_matrix (C F N X), C74_sphere (F N X), C74_constrain (F N X), C74_constrain_none (F N X), C74_constrain_refuted (F N X), C74_constrain_nearest (F N X), C74_constrain_nearest_refuted (F N X), C74_nearest (F N X), C74_half_turn (F N X), C74_drag (F N X), C74_drag_path (F N X), C74_drag_compose (C F N X), C74_next (C F N X), C74_next_iterate (C F N X), C74_ball (C F N X), C74_setaxes_refuted (C F N X), C74_ball_total (C F N X)
* C75: C75_compose (F N X), C75_decompose (C F N X), C75_decompose_compose (C F N X), C75_decompose_refuted (C F N X)
* C76: C76_reflection (F N X), C76_scale_direction (F N X), C76_scale_uniform (F N X), C76_rotation (C F N X), C76_parallel (F N X), C76_perspective (F N X), C76_pseudo (F N X), C76_shear (C F N X), C76_perspective_refuted (F N X), C76_pseudo_refuted (F N X), C76_rotation_refuted (C F N X)
* C77: C77_best_motion (C F N X), C77_scaled (C F N X), C77_exact (C F N X), C77_refused (F N X), C77_affine (F N X), C77_scale_refuted (C F N X), C77_three_points_refuted (F N X)
* C78: C78_choose (none), C78_oslo_refresh_refuted (none), C78_dir_rows (F X), C78_dir_section (F X), C78_dir_comment_refuted (F X), C78_dir_name_refuted (F X), C78_dir_data (F X), C78_dir_offset_refuted (F X), C78_codev_read (none), C78_codev_material (C F N X), C78_codev_name (none), C78_codev_name_refuted (none), C78_rii (none), C78_endings (none), C78_codev_equation (none), C78_codev_formula (none), C78_recorded_refresh (none), C78_bytes_literal (none), C78_bytes_injective (none)
* C79: C79_mirrors_image (C F N X), C79_corner_cube (C F N X), C79_two_mirrors (C F N X), C79_mirrors_survive (C F N X), C79_layers_survive (C F N X), C79_layers (C F N X), C79_plate (C F N X)
* C80: C80_stop_shift (F N X), C80_enlarged (F N X), C80_stop_position (F N X), C80_launch (F N X), C80_reversed (C F N X), C80_symmetric (C F N X)
* C81: C81_moment (C F N X), C81_distance (C F N X), C81_turned (C F N X), C81_ball (C F N X), C81_far_half_refuted (F N X)
* C82: C82_fermat (C F N X), C82_ray_is_stationary (C F N X), C82_stationary_is_ray (C F N X)
* C83: C83_element_table (F N X), C83_table_exists (F X), C83_coeffs (F), C83_relative_path (C F N X), C83_transverse3 (F), C83_paraxial (F X), C83_seidel (F X), C83_poly_lines (F), C83_names (none), C83_texts (F N X), C83_plain_refuted (C F N X), C83_mirror_refuted (C F N X), C83_relative_path_refuted (C F N X), C83_geometric (F X), C83_monomials (none)
* C84: C84_sagittal (C F N X), C84_tangential (C F N X), C84_vergence (F X), C84_parallel (F X), C84_focus (F X), C84_transfer (F X), C84_curvatures (F N X)
* C85: C85_folded (C F N X), C85_other_tilt_refuted (C F N X)
* C86: C86_power_sum (F N X), C86_lens (F N X), C86_combination (F N X), C86_newton (F N X), C86_gauss (F N X)
* C87: C87_minimum_deviation (C F N X), C87_index (C F N X)
* C88: C88_round_trips (F N X), C88_stable (F N X), C88_two_mirrors (F N X), C88_confocal_refuted (C F N X), C88_real_refuted (C F N X)
* C89: C89_fast_is_substitution (none), C89_fast_is_transform (F X), C89_fast_is_poly_transform (F N X)
* C90: C90_retraced (C F N X), C90_returns (C F N X)
* C91: C91_relay (C F N X), C91_spot (C F N X)
* C92: C92_splitlines (none), C92_layout (none), C92_reads (F X), C92_rejects (F X), C92_one_meaning (F X), C92_written (F X), C92_written_layout (F X), C92_tab_refuted (F X), C92_type_refuted (F X)
* C93: C93_average_unique (C F N X), C93_disc (C F N X), C93_pupil (C F N X), C93_half_refuted (C F N X), C93_radau (C F N X), C93_lobatto (C F N X), C93_degenerate (F X), C93_rules (C F N X), C93_radau_best (C F N X), C93_lobatto_best (C F N X)
* C94: C94_normal (F N X), C94_ultraviolet (F N X), C94_abbe (F X), C94_lens (F N X), C94_thin (F N X), C94_achromat (F N X)
* C95: C95_unique (C F N X), C95_newton (C F N X), C95_slope (F N X)
* C96: C96_thin_lens (F N X), C96_best_form (F N X), C96_bendable (F N X), C96_stop_at_lens (F N X), C96_asphere (F N X)
* C97: C97_kept (none), C97_found (none), C97_success (none), C97_again (none), C97_one (none), C97_first (none), C97_public (none)
* C98: C98_mirrors (F N X), C98_stigmatic (F N X), C98_telescope (F N X), C98_mersenne (F N X), C98_sphere (F N X)
* C99: C99_components (F N X), C99_sums (F N X), C99_eyepiece (F N X), C99_contact (F N X)
* C100: C100_lookup (none), C100_numbers (none), C100_one_number_refuted (none), C100_saved (none), C100_basic (none), C100_source (none), C100_source_refuted (none), C100_slash_refuted (none), C100_reload (F X), C100_any_class (F X), C100_stable (F X), C100_thermal_refuted (F X), C100_thermal_data (F X)
* C101: C101_waists (F N X), C101_focus (F N X), C101_collimation (F N X), C101_between (F N X), C101_afocal (F N X)
* C102: C102_mode (F N X), C102_reported (F N X)
* C103: C103_imported (C F N X), C103_behind (C F N X), C103_singlet (C F N X), C103_singlet_behind (C F N X), C103_powers (C F N X), C103_zmx (C F N X), C103_bare (C F N X), C103_zmx_element (C F N X)
* C104: C104_marechal (C F N X), C104_rayleigh (F N X), C104_perfect (F N X), C104_contrast (F N X)
* C105: C105_exact (C F N X), C105_defocus (C F N X), C105_depth (C F N X)
* C106: C106_elements (C F N X), C106_len (C F N X), C106_olc (C F N X), C106_len_singlet (C F N X), C106_olc_singlet (C F N X), C106_powers (C F N X)
* C107: C107_pattern (F N X), C107_dark (F N X), C107_core (F N X), C107_contrast (F N X), C107_cutoff (F N X)
* C108: C108_text (F N X), C108_cardinal (F N X), C108_pupils (F N X), C108_magnification (F N X), C108_airy (F N X), C108_beam (C F N X), C108_rayleigh (F N X), C108_poly (F X)
* C109: C109_wavefront (C F N X), C109_pixels (F X), C109_paraxial (C F N X), C109_figures (C F N X), C109_spot (F N X), C109_seidel (C F N X)
* C110: C110_symmetric (C F N X), C110_axial (C F N X), C110_mirrored (C F N X)
* C111: C111_mirrored (F N X), C111_transposed (F N X), C111_opposite (F N X), C111_even (F N X), C111_focus (F N X), C111_opposite_pixel (F X)
* C112: C112_symmetric (C F N X), C112_wavefront (C F N X), C112_mirrored (C F N X), C112_in_plane (C F N X), C112_even (C F N X), C112_built (C F N X)
* C113: C113_opposite (C F N X), C113_undistorted (C F N X), C113_exchanged (C F N X)
* C114: C114_telescope (F N X), C114_no_focus (F N X)
* C115: C115_turned (C F N X)
* C116: C116_depth (F N X), C116_slope (F N X), C116_measured (F N X)
* C117: C117_clipped (F N X), C117_stopped_down (F N X)
* C118: C118_relay (F N X)

## Definitions per model file

Every definition carries its source file and lines in its comment.  Python files cited, then the definitions:

* AffineModel (transformations.py): `hmat` `hvec` `hmm` `hmv` `hdiv` `identity_matrix` `translation_matrix` `translation_from_matrix` `reflection_matrix` `rotation_about` `scale_matrix` `projection_matrix` `clip_matrix` `shear_matrix` `radians` `orthogonalization_matrix` `sum_sq` `vector_norm` `vector_product` `facos` `angle_between_vectors` `concatenate_matrices` `is_same_transform`
* AimModel (conjugates.py, pupils.py, utils.py): `fnormalize` `veqb` `sagittal_meridional` `corners` `corners_of` `corners_angle` `corners_max` `inside` `pupil_map` `finite_ray` `finite_pupil` `finite_aim` `direction_map` `infinite_ray` `infinite_aim`
* AimSolveModel (system.py): `within` `try_starts` `find_start` `solve_newton` `loop_end` `widen` `outcome` `solve_brentq` `returned` `stop_arg` `chief_merit` `aim_chief` `excess` `excesses` `maximum` `marginal_merit` `aim_marginal` `box` `aim_pupil`
* AnalysisModel (analysis.py, geometric_trace.py): `bundle_ray` `landing` `at_pupil` `pupil_position` `oproj` `transverse` `planes` `spot` `line_rows` `rays_line` `split3` `ideal_heights` `distortion` `lateral_colour` `tangential_focus` `sagittal_focus` `axial_focus` `colour_focus` `colour_shift` `options` `other_attributes` `has_attribute` `run_value` `outcome` `analysis_init`
* CacheModel (cachend.py, system.py): `radius` `insert` `table_of` `searchsorted` `lerp` `interpolator` `cst` `clear` `new` `key_eqb` `lookup` `set_row` `ccall` `cevent` `history`
* CacheNdModel (cachend.py): `ckind` `interp` `nst` `nclear` `nnew` `blend` `cross2` `sub2` `barycentric` `nearest_interp` `linear_interp` `nupdate` `nstart` `ncall` `nhistory`
* CatalogModel (material.py, oslo.py, rii.py, utils.py, zemax.py): `is_space` `rev_string` `words_from` `words` `blank` `split_first` `take` `drop` `chars` `lstrip` `strip` `py_item` `py_take` `trunc` `lib_mat` `agf_line` `agf_new` `agf_loop` `agf_read` `agf_types` `raw_thermal` `make_thermal` `glass` `glass0` `oeqb` `leqb` `keqb` `put_trans` `agf_field` `agf_fields` `agf_to_material` `formulas` `find_formula` `all_some` `typ_index` `glass_index` `glass_thermal` `glc_line` `glc_read` `glc_types` `glc_type` `glc_to_material` `rii_types` `assoc` `rii_entry` `rii_glass` `rii_step` `rii_loop` `rii_to_material` `rii_index`
* DecomposeModel (transformations.py): `epair` `near` `beyond` `first` `final` `dehom` `tol8` `reflection_from_matrix` `trace` `rotation_from_matrix` `scale_from_matrix` `projection_from_matrix` `longest` `shear_from_matrix` `sxyz` `perspective_part` `compose_matrix` `inverse_matrix` `hvm` `divide` `any_eps` `decompose_matrix`
* DictModel (conjugates.py, elements.py, formats.py, material.py, name_mixin.py, pupils.py, system.py): `value` `dict` `exn` `res` `rbind` `dget` `ddel` `dset` `opt` `kw` `kw_required` `no_more` `as_num` `as_bool` `as_dict` `as_vec` `vec_value` `as_list` `as_nums` `as_dicts` `is0` `is1` `proj_name` `as_proj` `name_dict` `pop_type` `kind_name` `pupil_dict` `pupil_init` `pupil_types` `pupil_make` `conjugate_dict` `default_pupil` `conjugate_init` `conjugate_make` `material` `material_str` `material_make` `material_make_value` `element_class` `element` `class_type` `transform_dict` `element_dict` `fits` `spheroid_init` `element_make` `system` `system_dict` `default_object` `default_image` `conjugate_or` `list_or_nil` `default_fields` `system_init`
* DrawModel (elements.py, paraxial_trace.py, raytrace.py, system.py): `slice` `vsplit` `split_points` `place_point` `all` `from_axis_pieces` `trace_from_axis` `trace_from_axis_auto` `paraxial_lines` `along` `surface_cut` `profile` `drawn` `profile_of` `closed_outline` `outlines` `surfaces_cut` `drawn_of` `system_cut`
* ElementModel (elements.py, geometric_trace.py, material.py, system.py): `material` `surf` `kind` `element` `r2_of` `asph_sag` `surface_sag` `asph_slope` `surface_normal` `plane_intercept` `conic_intercept` `at_ray` `newton_intercept` `intercept` `sign` `refract_normal` `refract` `get_n_mu` `clip` `propagate` `onormal` `step` `sys_propagate` `geo_trace` `cumsum3` `origins` `rescale_surf` `rescale_element` `rescale_elements`
* FiniteFastModel (simplex_accel.pyx): `fast_coef` `fast_target` `fast_add` `fast_loops` `finite_object_fast`
* GaussianModel (elements.py, gaussian_trace.py, system.py): `blk_a` `blk_b` `blk_c` `blk_d` `beam_act` `propagate_gaussian` `sys_gaussian` `qi_axis` `make_qi` `default_qi` `free_space` `searchsorted_left` `qin_at` `diag` `spot_radius` `curvature_radius` `waist_position` `rayleigh_range` `waist_radius` `refocus_distance` `pymod` `angle` `normal` `spot_radius_normal` `is_simple_astigmatic` `axis_roots` `pair_modes` `eigenmodes` `proper_pairs` `is_proper` `half_trace` `csqrt_real` `eigenvalues` `reported_real` `stable`
* GlassModel (library_items.py, material.py): `split_from` `split` `basic` `basic_of` `basic_name` `made` `floats` `from_string` `by_name` `make` `full_name` `mval` `mdict` `tval` `common` `special` `mat` `class` `class_of` `exn` `res` `rbind` `thermal_dict` `opt` `nonempty` `thermal_item` `common_dict` `line` `mat_dict` `take` `kw` `as_str` `as_bool` `as_num` `as_inf` `as_nums` `as_map` `init_common` `construct` `index` `shift`
* GroupsModel (elements.py, system.py): `has_material` `solid` `is_mirror` `groups_from` `groups` `curvature` `opens` `rad_max` `put` `resize_from` `resize_convex` `edge_sag` `edges_from` `edge_thickness`
* HomeModel (library.py, utils.py): `path` `node` `files` `exists_` `put` `mkdir` `makedirs` `copy` `db_name` `find_db` `library` `process` `call` `init` `step` `run` `modules` `public` `publish`
* ImportModel (elements.py, formats.py, material.py, zemax.py): `value` `is_txt` `truthy` `column` `try_get` `roll` `set_nth` `set_column` `get_column` `apply_shifts` `row_el` `from_roc` `half` `row_element` `rows_from` `system_from_array` `longest` `system_from_text` `command` `zsurf` `fresh` `set_asph` `on_surface` `zmx_from` `zmx_to_system`
* ImportedModel (elements.py, formats.py, material.py, zemax.py): `make_material` `spheroid_of` `spheroids` `default_columns` `lens_from_text` `zmx_spheroid` `zmx_spheroids` `lens_from_zmx`
* ImporterModel (codev.py, library.py, library_items.py, oslo.py, rii.py, zemax.py): `importer` `parsers` `ends_with` `pick` `choose` `file_attribute` `pystr` `dir_row` `dir_lens` `reads` `has` `hex` `escape` `str_bytes` `strippable` `lstrip_quotes` `strip_quotes` `lookup` `sections` `insert_down` `sect_lens` `section` `dir_lens_of` `dir_read` `cv_glass` `cv_doc` `cv_item` `cv_types` `cv_one` `cv_all` `codevxml_read` `codevxml_to_material` `page` `book` `shelf` `rii_item` `yml_page` `yml_pages` `yml_books` `yml_read`
* LayoutModel (elements.py, system.py): `cumsum3` `cumsum1` `origins` `path` `track` `position` `replace` `close` `mirrored_from` `mirrored` `sgn` `excidence` `align` `align_from` `sys_align`
* LegendreModel (utils.py): `peval` `padd` `pscale` `pderiv` `pquot` `legendre_pair` `legendre` `gl_roots` `gr_roots`
* LibraryModel (library.py, library_items.py, rii.py): `kind` `item` `catalog` `session` `file` `filesystem` `mode` `outcome` `of_file` `first_of` `delete_first` `prepare` `load` `load_all` `lower_ascii` `lower` `nocase_eqb` `kind_eqb` `kind_of` `rows` `opt_filter` `row_le` `insert_row` `order_by` `select` `answer` `parse_all` `get_all` `get`
* MaterialModel (material.py): `osum` `pairs` `halves` `even_tail` `item` `inverse_powers` `n_schott` `sellmeier_terms` `n_sellmeier` `n_sellmeier_squared` `n_sellmeier_squared_transposed` `n_conrady` `n_herzberger` `n_sellmeier_offset` `n_sellmeier_squared_offset` `n_handbook_of_optics1` `n_handbook_of_optics2` `n_extended2` `n_hikari` `n_gas` `n_gas_offset` `powers` `n_refractiveindex_info` `n_retro` `n_cauchy` `n_polynomial` `n_exotic` `coefficients_index` `air_index` `abbe` `abbe_index` `delta_n` `dispersion` `lambda_d` `lambda_C` `lambda_F` `nd` `vd` `thermal` `dn_thermal` `cache` `same` `take_out` `call` `event` `set_param` `run`
* MtfModel (analysis.py): `shift` `unshift` `shifted` `centroid_x` `centroid_y` `pixel_size` `rows` `cumsum` `encircled` `drawn_radius` `line_spread` `transfer` `contrast`
* NewtonModel (elements.py): `newton_loop` `newton_scipy`
* OpdModel (geometric_trace.py): `pyindex` `pyend` `path_diff` `launch_path` `default_radius` `to_sphere` `sphere_hit` `sphere_point` `launched` `opd_ray` `opd`
* OptimizeModel (optimize.py): `ext` `ext_div` `variable` `v_get` `make_variable` `operand` `get_objective` `get_equality` `get_inequality` `collect` `gather` `sum_squares` `up` `values` `query` `minimizer` `query_point` `cache` `state` `find` `drop` `ex` `scaled` `respond` `run` `start_values` `scaled_start` `scaled_bounds` `result` `optimize` `accept` `reject`
* OsloLensModel (elements.py, oslo.py): `numbers` `oslo_surf` `len_spheroid` `olc_spheroid` `all_of` `lens_from_len` `lens_from_olc`
* OsloModel (elements.py, material.py, oslo.py): `made` `surface` `surface0` `len_state` `inner` `len_step` `len_loop` `len_to_system` `split_semi` `olc_state` `store` `ignored_olc` `olc_step` `olc_loop` `olc_to_system`
* ParaxTraceModel (paraxial_trace.py): `prow` `row_y` `row_u` `ptrace_from` `ptrace` `prays` `block` `inv_row0` `update_object` `update_image` `back` `lagrange` `ppupil_distance` `ppupil_height` `focal_length` `focal_distance` `principal_distance` `nodal_distance` `magnification` `set_nth` `focal_length_solve` `refocus`
* ParaxialModel (elements.py, gaussian_trace.py, system.py): `v4` `m4` `dot4` `mv4` `mT4` `mm4` `eye4` `transfer_matrix` `vertex_curvature` `refraction_matrix` `azimuth_matrix` `index_after` `paraxial_matrix` `propagate_paraxial` `first_index` `refractive_index` `refractive_index_last` `slice` `matrices` `paraxial_matrices` `sys_matrix` `sys_paraxial`
* PathModel (system.py): `val` `key` `lookup` `assign` `position` `replace` `step` `put` `get_path` `set_path` `pickup` `num_op` `pickup_value` `pickup1` `pickups` `strategy` `solve` `residual` `search` `solve1` `validator` `check` `rltb` `reqb` `validate1` `validate`
* PlacementModel (elements.py): `tol` `isclose` `allclose` `placement` `p_rotated` `unit_or_axis` `axis_rotation` `update` `set_offset` `set_angles` `set_distance` `set_direction` `init` `do_rotate` `from_axis` `to_axis` `from_normal` `to_normal` `setter` `apply_setter` `run`
* PolyModel (elements.py, poly_trace.py, simplex.py, system.py): `pzero` `pneg` `psub` `pmul` `ppow` `pshift` `pdiv` `pstate` `transfer_poly` `plane_intercept_poly` `sphere_intercept_poly` `asph_df` `asph_rounds` `asph_dfr` `intercept_poly` `propagate_poly` `poly_from` `poly_rays` `poly_trace` `poly_evaluate` `poly_start` `poly_transform` `poly_evaluate_finite`
* PolySeidelModel (poly_trace.py): `seidel_names` `seidel` `buchdahl_start` `extend_self` `flips` `negate` `flip_pair` `slice_1_10` `buchdahl_values` `buchdahl`
* PrintModel (conjugates.py, elements.py, geometric_trace.py, name_mixin.py, paraxial_trace.py, poly_trace.py, pupils.py, raytrace.py, system.py): `cell` `typeletter` `line` `when` `pupil_text` `conjugate_text` `roc` `material_of` `curvature_of` `element_line` `element_lines` `element_table` `coeff_lines` `oadd` `column_sums` `print_coeffs` `coef_row` `print_transverse3` `paraxial_row` `print_paraxial` `cumsum_o` `xyz` `geometric_row` `geometric_rows` `print_geometric` `print_seidel` `names` `label` `print_names_from` `print_names` `oseq` `poly_lines`
* PsfModel (geometric_trace.py): `csum` `rsum` `cis` `grid` `count_good` `amplitude` `padded` `fft2` `psf` `fftfreq` `psf_axis`
* PupilModel (conjugates.py, pupils.py, utils.py): `sinarctan` `tanarcsin` `projection` `rectilinear` `pupil_kind` `pupil` `with_val` `with_pdist` `fno_na` `pupil_slope` `pupil_radius` `pupil_na` `pupil_fno` `set_radius` `set_slope` `set_na` `set_fno` `pupil_update` `pupil_rescale` `conjugate` `with_cval` `with_pupil` `wideangle` `ftan` `conj_slope` `set_conj_slope` `conj_update` `conj_rescale`
* RefocusModel (geometric_trace.py, system.py, utils.py): `ray` `slope` `good` `points` `sum_fst` `sum_snd` `mean` `centred` `wdot` `refocus_shift` `refocus` `rms` `retrace`
* RegisterModel (transformations.py): `vsum` `mean` `total` `covariance` `horn_matrix` `affine_part` `kabsch` `horn` `affine_matrix_from_points` `superimposition_matrix`
* ReportModel (gaussian_trace.py, paraxial_trace.py, poly_trace.py, raytrace.py): `entry` `both` `airy_of` `print_params` `param_line` `gap` `paraxial_text` `beam_row` `print_beam` `beam_text` `poly_params` `poly_text`
* ResolutionModel (geometric_trace.py, paraxial_trace.py): `height_object` `height_image` `na_side` `na_object` `na_image` `f_number_object` `f_number_image` `working_object` `working_image` `airy_radius` `rayleigh_range` `number_of_points` `presize_from` `presize` `max_from` `max_radius` `gresize_from` `gresize` `place_axis` `given_ray` `rays_paraxial` `points` `edge` `update_stop_object` `update_stop_image` `clipping_coordinates` `rays_clipping`
* ReverseModel (elements.py, system.py): `relem` `material_of` `reverse_surf` `reverse_one` `reverse_loop` `reverse` `system` `system_reverse` `aperture`
* RotModel (transformations.py): `EPS` `unit_vector` `madd` `mscale` `outer` `rotation_matrix` `next_axis` `axes` `axes_ok` `rxyz` `b2n` `ax_i` `ax_j` `ax_k` `euler_matrix` `atan2` `euler_from_matrix` `quat` `qdot` `qscale` `quaternion_about_axis` `quaternion_matrix` `quaternion_multiply` `quaternion_conjugate` `quaternion_inverse` `qget` `qset` `quaternion_from_euler` `hget` `quaternion_from_matrix_precise`
* SampleModel (utils.py): `linspace` `mgrid1` `trunc` `distribution` `in_disc` `grid` `hex_ring` `mapo` `repeat_each` `concat_n` `sumR` `interval_to_circle` `quadrature` `pupil_distribution`
* SeidelModel (elements.py, material.py, paraxial_trace.py): `coefs` `no_coefs` `departure` `aberration` `element_aberration` `element_dispersion` `aberrations_from` `aberrations` `scale_coefs` `transverse3`
* SimplexModel (simplex.py, simplex_accel.pyx): `u16` `simplex_iter` `simplex_size` `itable` `izero` `iset` `enum_loop` `simplex_enum` `evens` `odds` `zip_add` `idx_capacity` `upd` `idx_step` `simplex_idx` `simplex_mul` `vadd` `vscale` `shift` `powers_from` `power_table` `eval_mono` `all_some` `simplex_eval_n` `simplex_eval` `binom` `multinom` `multinom_next_loop` `multinom_next` `supernom_loop` `supernom_next` `unflatten` `kofnat` `kpow` `tr_inner` `tr_term` `tr_loop` `tr_set_first` `tr_outer` `simplex_transform`
* SimplexPowModel (simplex_accel.pyx): `rmul` `rvadd` `rvscale` `pow_step` `simplex_pow`
* SumsModel (special_sums.py): `nrows` `ncols` `pix` `grid` `ztrunc` `add_at` `bincount` `angle_sum` `direction` `polar_sum`
* TraceRestModel (gaussian_trace.py, paraxial_trace.py, system.py): `track_length` `overwrite` `gauss_propagate` `parax_propagate` `eigenrays` `set_curvature` `focal_length_solve_at` `diverging` `confined` `is_stigmatic` `set_radii` `gauss_resize` `oR_eqb` `oZ_eqb` `pkey_eqb` `pst` `pfind` `pset` `pupil` `pevent` `phistory`
* TrackballModel (transformations.py): `quaternion_real` `quaternion_imag` `euler_from_quaternion` `unit_quat` `qadd` `quaternion_slerp` `random_quaternion` `random_rotation_matrix` `bar_itzhack` `top` `quaternion_from_matrix` `map_to_sphere` `constrain_to_axis` `nearest_from` `nearest_axis` `ball` `ball_new` `place` `setaxes` `set_constrain` `down` `drag` `next` `ball_matrix` `bevent` `bstep` `brun`
* ZmfModel (zemax.py): `byte_ok` `key_byte` `keystream` `xor_from` `zmf_obfuscate` `read` `u32` `field` `lstrip` `strip` `digits` `dec6` `vers` `startswith` `lens` `read_lens` `read_lenses` `zmf_read`
* ZmxTextModel (system.py, zemax.py): `is_break` `is_lf` `is_cr` `splitlines_from` `splitlines` `is_quote` `lstrip_quote` `strip_quote` `made` `find` `finite` `word0` `zsystem` `zs_start` `on_last` `unit_of` `waves` `zmx_line` `zmx_lines` `zmx_text` `zs_surfaces` `zs_coatings`
