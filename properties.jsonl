{"id": "C01", "title": "The monomial enumeration of the polynomial tracer is complete and duplicate free", "statement": "Enumerating the monomials of a truncated polynomial in d variables of order m yields every exponent tuple with total degree below m exactly once, in order of non-decreasing total degree, nothing else, and the advertised size formula equals the number of tuples yielded.", "quantifier": "for all d >= 1 and all m >= 1", "why_tests_cant": "Tests compare a few (d, m) pairs; completeness and absence of duplicates for every dimension and order needs an induction over both.", "anchors": ["rayopt/simplex.py: simplex_iter", "rayopt/simplex.py: simplex_size"]}
{"id": "C02", "title": "Monomial index <-> exponent tables are inverse to each other", "statement": "The two index tables built for a truncated polynomial (exponents -> slot, slot -> exponents) are mutually inverse on all monomials, as long as the number of monomials fits the 16 bit index type; for larger tables the slot table silently wraps, so two different monomials share a slot.", "quantifier": "for all d, m with at most 65536 monomials; the failure is witnessed for d=1, m=65537", "why_tests_cant": "A test can only look at small tables; the wrap-around appears only at sizes nobody puts in a unit test and the inverse law quantifies over all slots.", "anchors": ["rayopt/simplex.py: simplex_enum"]}
{"id": "C03", "title": "Multiplying two truncated polynomials is polynomial multiplication up to the truncation order", "statement": "The coefficient of every monomial e in the product of two truncated polynomials is exactly the sum of a_p*b_q over all pairs of monomials with p+q=e; hence the product is commutative, associative, distributes over addition and has the constant 1 as unit.", "quantifier": "for all dimensions d, orders m and all coefficient vectors over any commutative ring", "why_tests_cant": "Ring laws quantify over all coefficient vectors and all orders; a test evaluates finitely many.", "anchors": ["rayopt/simplex_accel.pyx: simplex_mul", "rayopt/simplex.py: simplex_idx", "rayopt/simplex.py: Simplex.__mul__"]}
{"id": "C04", "title": "The multiplication table capacity used by the three-variable polynomials is exact", "statement": "Building the multiplication table for three variables never hits its internal capacity assertion, for any order: the closed-form capacity equals the largest number of factor pairs any monomial has, so no pair is dropped and no out-of-range write happens. For other dimensions the closed form is wrong and constructing the table fails.", "quantifier": "for all orders m >= 1 with d = 3; failure witnessed for d = 1 and d = 4", "why_tests_cant": "It is a discrete optimisation statement over all orders; a test checks a handful of orders and, as shipped, only d = 3.", "anchors": ["rayopt/simplex.py: simplex_idx", "rayopt/simplex.py: Simplex.__new__"]}
{"id": "C05", "title": "Powers of truncated polynomials obey the power laws when the constant term is one", "statement": "For a truncated polynomial a with constant term 1, a**0 = 1, a**(p+q) = a**p * a**q for all real exponents, hence a**n is the n-fold product, a**-1 is the inverse and (a**.5)*(a**.5) = a. For constant term other than 1 the result is wrong: (2+x)**2 differs from (2+x)*(2+x).", "quantifier": "for all d, m, all coefficient vectors with constant term 1 and all real p, q", "why_tests_cant": "The law is about an infinite binomial series truncated at arbitrary order and arbitrary real exponents; tests exercise a few exponents on constant term one.", "anchors": ["rayopt/simplex_accel.pyx: simplex_pow", "rayopt/simplex.py: Simplex.__pow__"]}
{"id": "C06", "title": "Evaluating a truncated polynomial gives the value of the polynomial", "statement": "Evaluation of a coefficient vector at a point returns the sum over all monomials of coefficient times the product of coordinate powers, for every point; it is linear in the coefficients, and evaluating a product differs from the product of the evaluations only by monomials of total degree >= m. With order m = 1 the evaluation routine writes outside its power table.", "quantifier": "for all d, m >= 2, coefficient vectors and evaluation points", "why_tests_cant": "Quantifies over all coefficient vectors, points, orders; the m=1 memory write is not observable in a unit test.", "anchors": ["rayopt/simplex_accel.pyx: simplex_eval"]}
{"id": "C07", "title": "Linear change of variables of a truncated polynomial is substitution", "statement": "Transforming the coefficients by a d x d matrix t yields the polynomial whose value at x equals the original polynomial at t.x, for every matrix, as long as every multinomial coefficient met is below 65536; beyond (order 14 and up in three variables) the 16 bit multinomial wraps and the result is wrong. Real coefficients are determined by the values, so the unit matrix changes nothing and two changes of variables in turn give exactly the coefficients of one change with the matrix product.", "quantifier": "for all d, m, matrices t, coefficient vectors and points x satisfying the 16 bit bound; failure witnessed at degree 13", "why_tests_cant": "Correctness of the carry-style enumeration of multinomial terms for all orders is an induction; the 16 bit wrap needs an order nobody tests.", "anchors": ["rayopt/simplex_accel.pyx: simplex_transform", "rayopt/simplex_accel.pyx: supernom_next", "rayopt/simplex_accel.pyx: multinom_next", "rayopt/simplex_accel.pyx: multinom", "rayopt/simplex_accel.pyx: binom"]}
{"id": "C08", "title": "Surface frame changes are lossless rigid motions", "statement": "For every element, whatever direction and tilt angles it has, converting a vector from lab axes to the surface frame and back (and the reverse) returns the same vector, and both conversions preserve lengths, angles between vectors and handedness; the surface axis (0,0,1) maps onto the element's direction.", "quantifier": "for all directions, angles and vectors", "why_tests_cant": "Tests check a few angles; the claim is over the whole rotation group, including the code's special cases near the poles.", "anchors": ["rayopt/elements.py: TransformMixin.update", "rayopt/elements.py: TransformMixin.from_axis", "rayopt/elements.py: TransformMixin.to_axis", "rayopt/elements.py: TransformMixin.from_normal", "rayopt/elements.py: TransformMixin.to_normal", "rayopt/transformations.py: rotation_matrix", "rayopt/transformations.py: euler_matrix"]}
{"id": "C09", "title": "Element placement is kept in normal form by every setter history", "statement": "After any sequence of assignments to an element's distance, direction, angles or offset, the distance read back is >= 0, the direction has unit length and the offset equals distance times direction; assigning an offset and reading it back returns it, and assigning distance d moves the element to d times the previous direction.", "quantifier": "for all initial values and all finite sequences of setter calls", "why_tests_cant": "It is an invariant over unbounded histories of setter calls.", "anchors": ["rayopt/elements.py: TransformMixin.distance", "rayopt/elements.py: TransformMixin.direction", "rayopt/elements.py: TransformMixin.angles", "rayopt/elements.py: TransformMixin.offset", "rayopt/elements.py: TransformMixin.update"]}
{"id": "C10", "title": "Refraction obeys Snell's law in vector form", "statement": "For every unit incident direction, every (not necessarily normalised) surface normal and every positive index ratio mu = n0/n for which the discriminant is non-negative, the refracted direction is a unit vector, lies in the plane of incidence, satisfies n * (u x N) = n0 * (u0 x N), and is invalid (NaN) exactly when total internal reflection occurs.", "quantifier": "for all unit u0, nonzero normals, mu > 0", "why_tests_cant": "Continuous family of inputs; tests sample a few rays.", "anchors": ["rayopt/elements.py: Interface.refract", "rayopt/elements.py: Interface.get_n_mu"]}
{"id": "C11", "title": "Reflection obeys the law of reflection and is an involution", "statement": "For a mirror the outgoing direction is a unit vector, its tangential component equals the incident one, its normal component is the negative of the incident one, and reflecting twice at the same normal returns the incident direction.", "quantifier": "for all incident directions and nonzero normals", "why_tests_cant": "Continuous family of inputs.", "anchors": ["rayopt/elements.py: Interface.refract"]}
{"id": "C12", "title": "Refraction keeps the ray going to the other side and is reversible", "statement": "For a ray that travels along the surface normal (u0.N > 0) the refracted ray also has u.N >= 0 and sending the refracted ray backwards through the same interface with inverse index ratio (and opposite normal) returns the reversed incident ray. For rays travelling against the local normal the code returns a ray on the incident side (refuted).", "quantifier": "for all unit u0 with u0.N >= 0, all mu > 0 without total internal reflection", "why_tests_cant": "Continuous family of inputs, and the failing half-space is not exercised by any test.", "anchors": ["rayopt/elements.py: Interface.refract"]}
{"id": "C13", "title": "The conic surface intersection is on the surface, on the right sheet, and found whenever it exists", "statement": "For every conic surface (curvature, conic constant) and every ray, the returned parameter puts the ray on the surface quadric; if the ray meets the surface sheet (the graph of the sag) travelling along its normal, then exactly that point is returned; if the discriminant is negative the result is NaN. For a paraboloid (conic = -1) and a ray parallel to the axis the routine computes 0/0 and loses a ray that does hit the surface (refuted).", "quantifier": "for all curvatures, conic constants, ray origins and unit directions with a non-degenerate leading coefficient", "why_tests_cant": "Continuous family; the degenerate paraboloid case is missed by the tests in the repository.", "anchors": ["rayopt/elements.py: Spheroid.intercept", "rayopt/elements.py: Spheroid.surface_sag", "rayopt/elements.py: Element.intercept"]}
{"id": "C14", "title": "The surface normal is the gradient of the sag function", "statement": "For every aspheric surface (curvature, conic, any number of even aspheric coefficients) and every point inside its domain, the vector used as the normal equals the gradient of the implicit sag function, so refraction uses the true normal.", "quantifier": "for all curvature, conic, aspheric coefficient lists and points with (1+k)c^2 r^2 < 1", "why_tests_cant": "Quantifies over arbitrary-length coefficient lists and all points; needs calculus and induction over the Horner loop.", "anchors": ["rayopt/elements.py: Spheroid.surface_sag", "rayopt/elements.py: Spheroid.surface_normal"]}
{"id": "C15", "title": "Vignetted rays stay vignetted; valid rays were inside every clear aperture", "statement": "When a trace is run with clipping, a ray that is valid after element j had a transverse position within the clear radius of every element up to j, and a ray that is invalid at an element is invalid at all later elements.", "quantifier": "for all systems (any number of elements), all rays", "why_tests_cant": "Invariant over systems of unbounded length.", "anchors": ["rayopt/elements.py: Element.clip", "rayopt/elements.py: Interface.propagate", "rayopt/system.py: System.propagate"]}
{"id": "C16", "title": "Traced rays are unit-length directed, lie on the surfaces and travel on straight lines in the lab frame", "statement": "For every system and every launched ray of unit direction, the traced ray has unit direction after each element, its position at each analytic element satisfies that element's sag equation, consecutive positions in the lab frame differ by (reported optical path / index) times the lab-frame direction before the element.", "quantifier": "for all systems (any number of elements, any decentre/tilt), all rays for as long as they are valid", "why_tests_cant": "Invariant by induction over arbitrary systems with arbitrary frame rotations.", "anchors": ["rayopt/system.py: System.propagate", "rayopt/elements.py: Element.propagate", "rayopt/geometric_trace.py: GeometricTrace.propagate", "rayopt/system.py: System.origins"]}
{"id": "C17", "title": "Paraxial element and system matrices are symplectic and the Lagrange invariant is conserved", "statement": "For every element (including tilted surfaces in the tangential plane and mirrors) the paraxial matrix is symplectic, so for every system and every pair of paraxial rays y1*(n u2) - y2*(n u1) has the same value after every surface. For surfaces rotated about the axis (tilt azimuth not a multiple of 90 degrees) the code's rotation block is not orthogonal and the property fails (refuted).", "quantifier": "for all element lists, wavelengths and ray pairs", "why_tests_cant": "Unbounded systems and all continuous parameters.", "anchors": ["rayopt/elements.py: Spheroid.paraxial_matrix", "rayopt/elements.py: Element.paraxial_matrix", "rayopt/paraxial_trace.py: ParaxialTrace.lagrange", "rayopt/gaussian_trace.py: GaussianTrace.is_proper"]}
{"id": "C18", "title": "Paraxial matrices of sub-ranges compose", "statement": "The system matrix from element a to c equals the matrix from b to c times the matrix from a to b, and applying the propagate-one-element step repeatedly gives the same ray as the matrix product; the index used at the split is the one a lookup of the refractive index before the split returns.", "quantifier": "for all systems and all split points 1 <= a <= b <= c", "why_tests_cant": "Induction over the element list; the index look-back across elements without material is easy to get wrong and tests use full ranges only.", "anchors": ["rayopt/system.py: System.paraxial_matrix", "rayopt/system.py: System.paraxial_matrices", "rayopt/system.py: System.propagate_paraxial", "rayopt/system.py: System.refractive_index"]}
{"id": "C19", "title": "The paraxial trace is the first-order limit of the exact trace", "statement": "For every centred system of refracting conic surfaces in which no aspheric terms are used, differentiating the exactly traced ray with respect to a small displacement of the launch ray around the axis gives exactly the paraxial ray. For a mirror immersed in a medium of index other than 1 the two disagree (refuted).", "quantifier": "for all centred systems, all one-parameter ray families through the axis", "why_tests_cant": "A statement about derivatives along arbitrary systems; tests compare numbers at a finite step.", "anchors": ["rayopt/elements.py: Spheroid.paraxial_matrix", "rayopt/elements.py: Interface.propagate", "rayopt/system.py: System.propagate", "rayopt/system.py: System.propagate_paraxial"]}
{"id": "C20", "title": "Rescaling a system scales the geometry and nothing else", "statement": "After rescaling by s > 0, every ray launched at s times the position with the same direction hits every surface at s times the original position with the same direction and s times the optical path; sag, normals and clipping scale accordingly; rescaling by s and then by 1/s restores all element parameters.", "quantifier": "for all systems, rays, s > 0, any number of aspheric terms", "why_tests_cant": "Commutation of a transformation with an arbitrary-length trace.", "anchors": ["rayopt/system.py: System.rescale", "rayopt/elements.py: Spheroid.rescale", "rayopt/elements.py: Element.rescale"]}
{"id": "C21", "title": "Reversing a system twice restores it", "statement": "Reversing a system twice restores the order, curvatures, aspheric terms, distances and materials of all elements if and only if the first element has zero distance and the last element carries no material; reversal keeps the element chosen as aperture stop (refuted: the stop index is not remapped).", "quantifier": "for all systems with at least one element", "why_tests_cant": "Structural statement on lists of any length; the stop index bug only shows for asymmetric systems.", "anchors": ["rayopt/system.py: System.reverse", "rayopt/elements.py: Spheroid.reverse", "rayopt/elements.py: Element.reverse"]}
{"id": "C22", "title": "A reversed system is optically the inverse system", "statement": "The paraxial matrix of the reversed system is the inverse of the forward matrix conjugated by the flip (y, nu) -> (y, -nu), for every untilted refracting system in which every element but the last carries a material and the last surface has no power (image plane). Refuted for systems with a material-less surface (such as an aperture stop) inside and for systems with mirrors: the materials move to the wrong elements.", "quantifier": "for all untilted refractive systems of any length", "why_tests_cant": "Induction over the number of surfaces with shifted distances and materials (off-by-one prone).", "anchors": ["rayopt/system.py: System.reverse", "rayopt/system.py: System.paraxial_matrix"]}
{"id": "C23", "title": "After updating the conjugates the chief and marginal rays hit centre and rim of the stop", "statement": "After the paraxial pupil update, the paraxial chief ray crosses the stop element at height 0 and the paraxial marginal ray at the stop radius, for finite and (rectilinear) infinite objects. If the field is to follow the system, the chief ray starts at the edge of the first element and the image field ends at the edge of the last; otherwise the field is unchanged.", "quantifier": "for all systems and stop positions with non-zero pupil matrix entries", "why_tests_cant": "Universally quantified over systems; relies on exact cancellation.", "anchors": ["rayopt/paraxial_trace.py: ParaxialTrace.update_conjugates", "rayopt/paraxial_trace.py: ParaxialTrace.rays", "rayopt/pupils.py: Pupil.update"]}
{"id": "C24", "title": "Solving the last curvature for a focal length delivers that focal length", "statement": "After the focal-length solve on the last powered surface, the back focal length reported by the paraxial trace is the requested one, whenever the marginal height at the surface is non-zero and the media differ.", "quantifier": "for all systems, marginal rays and requested focal lengths", "why_tests_cant": "All-input algebraic identity through a trace.", "anchors": ["rayopt/paraxial_trace.py: ParaxialTrace.focal_length_solve", "rayopt/paraxial_trace.py: ParaxialTrace.focal_length"]}
{"id": "C25", "title": "Paraxial refocusing places the image plane at the axis crossing", "statement": "After paraxial refocus the marginal height at the image is zero whenever the required distance is non-negative; for a virtual image (negative distance) the stored distance becomes positive and the image is not in focus (refuted).", "quantifier": "for all systems and marginal rays", "why_tests_cant": "All inputs; the virtual-image case is untested.", "anchors": ["rayopt/paraxial_trace.py: ParaxialTrace.refocus", "rayopt/elements.py: TransformMixin.distance"]}
{"id": "C26", "title": "Pupil specifications convert consistently", "statement": "For every pupil kind (radius, slope, numerical aperture, f-number) assigning radius, slope or (where available) NA/f-number and reading it back returns the assigned value; after an update with both distance and radius enabled the radius read back is the one requested; rescaling scales radius and distance together.", "quantifier": "for all pupil kinds, distances > 0, indices > 0 and admissible values", "why_tests_cant": "Composition of inverse trigonometric conversions over continuous inputs.", "anchors": ["rayopt/pupils.py: Pupil", "rayopt/pupils.py: RadiusPupil", "rayopt/pupils.py: SlopePupil", "rayopt/pupils.py: NaPupil", "rayopt/pupils.py: FnoPupil", "rayopt/utils.py: tanarcsin", "rayopt/utils.py: sinarctan"]}
{"id": "C27", "title": "Launched rays are unit vectors from the object point through the requested pupil point", "statement": "For a finite object the launched ray starts on the object surface at the requested field height and its line passes through the requested pupil coordinate; for an infinite object all rays of a field are parallel. Directions are unit vectors for the rectilinear, stereographic and equisolid projections; the equidistant projection returns non-unit vectors and the zero vector on axis (refuted), and the orthographic projection always raises.", "quantifier": "for all field and pupil coordinates, pupil distances, extents", "why_tests_cant": "Continuous inputs; two of the five projections are untested.", "anchors": ["rayopt/conjugates.py: FiniteConjugate.aim", "rayopt/conjugates.py: InfiniteConjugate.aim", "rayopt/conjugates.py: InfiniteConjugate.map", "rayopt/utils.py: sagittal_meridional", "rayopt/pupils.py: Pupil.map"]}
{"id": "C28", "title": "Pupil sampling patterns stay inside the unit pupil and report the centre ray", "statement": "Every sampling pattern with every requested number of rays yields only points of the closed unit disc and the reported reference index is a point at the pupil centre; the 'meridional' pattern violates the latter: its reference ray is the lower rim ray (refuted).", "quantifier": "for all pattern names and all numbers of rays", "why_tests_cant": "Quantifies over all ray counts with integer rounding corner cases.", "anchors": ["rayopt/utils.py: pupil_distribution"]}
{"id": "C29", "title": "Serialising and re-loading preserves pupils and conjugates", "statement": "Loading the dictionary a pupil writes gives back an equal pupil, for every kind and parameter setting. The same holds for conjugates except that the update_radius flag is lost (refuted), and for systems except that the list of fields is lost (refuted), and for elements except that a nickname makes loading fail (refuted).", "quantifier": "for all attribute values", "why_tests_cant": "Round-trip law over all attribute combinations including defaults being omitted.", "anchors": ["rayopt/pupils.py: Pupil.dict", "rayopt/conjugates.py: Conjugate.dict", "rayopt/system.py: System.dict", "rayopt/elements.py: Element.dict", "rayopt/name_mixin.py: NameMixin.dict", "rayopt/name_mixin.py: NameMixin.make"]}
{"id": "C30", "title": "Constructing objects from a description does not change the description", "statement": "Building an object from a dictionary leaves the dictionary unchanged so that building again gives an equal object; refuted for dictionaries carrying a type key: the key is removed, the second construction silently uses the default type.", "quantifier": "for all registered types and dictionaries", "why_tests_cant": "History dependence: only shows on second use.", "anchors": ["rayopt/name_mixin.py: NameMixin.make"]}
{"id": "C31", "title": "Refractive index queries reflect the material's current parameters", "statement": "A refractive index query returns the value of the dispersion formula for the parameters at the first query of that wavelength; as long as parameters are not modified this equals the formula value under every history of queries (including cache eviction); after a parameter modification a cached wavelength keeps returning the stale value (refuted).", "quantifier": "for all histories of queries and parameter changes, all cache sizes", "why_tests_cant": "History property over an LRU cache with eviction.", "anchors": ["rayopt/material.py: AbbeMaterial.refractive_index", "rayopt/material.py: CoefficientsMaterial.refractive_index", "rayopt/utils.py: lru_cache"]}
{"id": "C32", "title": "Index/Abbe-number materials reproduce their defining data", "statement": "A material given by index n and Abbe number v has index n at the reference line and its Abbe number computed from the three lines is v; equivalent dispersion formula families agree where one is a re-parametrisation of the other.", "quantifier": "for all n, v (v != 0, n != 1), reference wavelengths and coefficient lists of any length", "why_tests_cant": "All real parameters and arbitrary-length coefficient lists.", "anchors": ["rayopt/material.py: AbbeMaterial", "rayopt/material.py: Material.vd", "rayopt/material.py: CoefficientsMaterial"]}
{"id": "C33", "title": "Field cache and start-value interpolation are well defined", "statement": "A cached field query returns the value computed on its first query until the cache is cleared, independent of other queries in between; the polar interpolation used as a start value never divides by zero, returns the cached value at a cached radius and otherwise a convex combination of the two neighbouring entries. The nearest-neighbour cache starts from the value at a nearest known field, the linear cache from the weighted mean at three fields around the query (exact for values linear in the field, nothing for fewer than four fields or outside their hull), and with a solver that ignores its start value no answer depends on the history. Clearing the cache also forgets the interpolated data, a constructor guess is used, and a failed query leaves the start values of cached fields alone (all three refuted).", "quantifier": "for all query histories and all cached point sets", "why_tests_cant": "History property and all sorted lists of cached radii.", "anchors": ["rayopt/cachend.py: CacheND", "rayopt/cachend.py: NearestCacheND", "rayopt/cachend.py: LinearCacheND", "rayopt/cachend.py: PolarCacheND"]}
{"id": "C34", "title": "Angle and polar sums conserve the total", "statement": "Summing an image along an angle, azimuthally or radially never loses or duplicates a pixel: the sum of the output bins equals the sum of all pixels and no pixel gets a negative bin index, for every image size, angle, aspect, centre and bin size; each pixel goes to the documented bin, angle 0 and 90 degrees give column and row sums, 180 and 270 degrees the same reversed, 45 and 135 degrees the antidiagonals and diagonals; turning or mirroring the direction is turning or mirroring the image, at every angle; the default bin size leaves no empty bin, and the radial histogram always has the promised length. Radial sums with a bin larger than the circle, or not dividing it, break this (refuted).", "quantifier": "for all image shapes, contents, angles, aspects, centres and positive bin sizes", "why_tests_cant": "Continuous parameters with floor-based binning; boundary cases (exactly +pi) are measure zero for tests.", "anchors": ["rayopt/special_sums.py: angle_sum", "rayopt/special_sums.py: polar_sum"]}
{"id": "C35", "title": "Lens file descriptions decrypt by the same operation that encrypts them", "statement": "Applying the ZMF description scrambling twice with the same key parameters returns the original bytes, and records written in the documented binary layout are read back exactly, for any number of records.", "quantifier": "for all byte strings, key parameters and record lists", "why_tests_cant": "All byte strings/lengths.", "anchors": ["rayopt/zemax.py: zmf_obfuscate", "rayopt/zemax.py: zmf_read"]}
{"id": "C36", "title": "Library refresh is atomic and keeps the catalog current", "statement": "If parsing a catalog file fails the database is left exactly as before; after a successful load the database holds the file's current content unless the stored copy was considered fresh. A file modified without changing its size is considered fresh although its timestamp is newer, so stale data is kept (refuted for the claim that a newer file is always re-read). Files that yield several catalogs, and catalogs whose parser is gone, leave duplicates or pending deletions (refuted).", "quantifier": "for all database states, files and parse outcomes (including exceptions at the parser)", "why_tests_cant": "All failure points and all relations of timestamps and sizes.", "anchors": ["rayopt/library.py: Library.load", "rayopt/library.py: Library.load_all", "rayopt/library_items.py: Catalog.parse"]}
{"id": "C37", "title": "Optimiser bookkeeping restores or applies the design exactly", "statement": "Whatever sequence of trial evaluations the optimiser makes, rejecting restores every variable to its value at set-up and accepting sets every variable to the result point; every objective, constraint and trace value the optimiser sees, cached or not, is the one of the original system with only the variables changed; reported inequality values are non-negative exactly when the operands are within bounds, the objective is zero exactly when every weighted operand is at its offset, and for positive scales a trial point is within the scaled bounds exactly when the variables are within theirs (negative scales reverse them, refuted). An equality operand with a nonzero target enforces value = offset instead of the target (refuted).", "quantifier": "for all numbers of variables, evaluation histories and scalings", "why_tests_cant": "Quantifies over all schedules of evaluations.", "anchors": ["rayopt/optimize.py: optimize", "rayopt/optimize.py: Operand", "rayopt/optimize.py: Variable"]}
{"id": "C38", "title": "Gaussian beams: propagation, waists, resonator modes", "statement": "Propagating the complex beam matrix through elements in sequence equals acting with the product of their matrices, and follows the complex rays of the beam (which determine it); systems that conserve the ray invariant keep every beam symmetric and confined; the closed form between surfaces equals propagation by the free-space matrix. A beam made from waists and positions has at every distance the textbook spot, wavefront curvature, waist position, Rayleigh range and waist; an angle turns it; the default beam has its waist on the object or in the pupil; refocusing puts the last surface in the waist. Every reported eigenmode is reproduced by the system; a section is called stable exactly if one and only one confined beam is reproduced; the reported numbers are its eigenvalues; the symplectic check compares exactly what makes a matrix conserve the invariant. Refuted: exactly on a surface the beam before it is reported; the principal-axes form raises for every beam with rotated axes.", "quantifier": "for all complex beams, matrices, systems, distances and waists", "why_tests_cant": "Continuous, and induction over systems.", "anchors": ["rayopt/elements.py: Element.propagate_gaussian", "rayopt/gaussian_trace.py: GaussianTrace.qin_at", "rayopt/gaussian_trace.py: GaussianTrace.make_qi", "rayopt/gaussian_trace.py: GaussianTrace.spot_radius_at", "rayopt/gaussian_trace.py: GaussianTrace.normal", "rayopt/gaussian_trace.py: GaussianTrace.eigenmodes", "rayopt/gaussian_trace.py: GaussianTrace.stable", "rayopt/gaussian_trace.py: GaussianTrace.is_proper"]}
{"id": "C39", "title": "Path access, pickups and validators behave like lens laws", "statement": "Writing a value at a path and reading it gives the value, writing what was read changes nothing, writes at disjoint paths commute; one pass over pickups whose sources and targets are not overwritten later makes every pickup relation hold and a second pass changes nothing (a chain listed in the wrong order is left stale, refuted); whatever points the root finder tries, a solve ends in the system got from the original by setting the variable once and running the pickups once; a validation without fixing passes exactly when all constraints hold and changes nothing, and after a fixing validation of independent consistent constraints every one of them holds (two validators on one place can undo each other, refuted).", "quantifier": "for all stores, paths, pickup and validator lists", "why_tests_cant": "Laws over all states and lists of any length.", "anchors": ["rayopt/system.py: System.get_path", "rayopt/system.py: System.set_path", "rayopt/system.py: System.pickup", "rayopt/system.py: System.validate"]}
{"id": "C40", "title": "Bracketing solver only hands sign-changing brackets to the root finder", "statement": "The bracketing aiming solver either returns a point whose merit is within tolerance, or calls the root finder with end points of opposite sign, or raises; for no merit function (including NaN values) does it call the root finder with an invalid bracket, and positive end points stay positive. Newton is only started where the merit is a number, as near to the given start as whole steps allow. Given root finders that solve to the tolerance, aimed marginal rays meet the rim of the stop (or, aiming at the rim, pass every surface and touch one), the four pupil edges solve their own direction and surround the pupil point, and chief rays of symmetric systems pass the stop centre. Refuted: a sign change found in the last round is rejected, an explicit stop index means one surface less for marginal rays, and at small fields chief rays are not aimed.", "quantifier": "for all merit functions, start points, tolerances and iteration limits", "why_tests_cant": "All merit functions.", "anchors": ["rayopt/system.py: System.solve_brentq", "rayopt/system.py: System.solve_newton", "rayopt/system.py: System.aim_chief", "rayopt/system.py: System.aim_marginal", "rayopt/system.py: System._aim_pupil"]}
{"id": "C41", "title": "Closing a ring and laying out origins", "statement": "After closing a system at an element the sum of all offsets is zero, i.e. the last origin coincides with the starting point; the origin of element j is the sum of the offsets up to j and the path length is the sum of distances, so origins move by at most the path length.", "quantifier": "for all systems and all indices", "why_tests_cant": "Any number of elements.", "anchors": ["rayopt/system.py: System.close", "rayopt/system.py: System.origins", "rayopt/system.py: System.path"]}
{"id": "C42", "title": "Rotation, Euler angle and quaternion utilities are mutually consistent", "statement": "Rotation matrices are proper orthogonal and fix their axis; all 24 Euler conventions give proper rotations and matrix->angles->matrix is the identity; quaternion products correspond to matrix products, norms multiply, and the quaternion inverse inverts.", "quantifier": "for all axes, angles, 24 conventions, all quaternions", "why_tests_cant": "Continuous groups.", "anchors": ["rayopt/transformations.py: rotation_matrix", "rayopt/transformations.py: euler_matrix", "rayopt/transformations.py: euler_from_matrix", "rayopt/transformations.py: quaternion_multiply", "rayopt/transformations.py: quaternion_matrix", "rayopt/transformations.py: quaternion_inverse"]}
{"id": "C43", "title": "The polynomial ray trace is the Taylor expansion of the exact ray trace", "statement": "For every centred system of spherical and plane refracting or reflecting surfaces whose distances follow the direction of the light, and every truncation order m >= 2, the polynomial trace is defined, and for all rays near the axis the heights and slopes it gives at every element differ from those of the exact trace by terms of order 2m+1 in ray height and slope, and sag and optical path (lengths behind an odd number of mirrors counted negative) by terms of order 2m. The positions reported by evaluate for infinite and finite objects are those of the ray from the object point through the pupil point to the same order, and the constant coefficients are the paraxial trace. On a plane with aspheric terms the intercept gives the Taylor coefficients of squared radius, axial distance, slope and normal at the intersection up to the order allowed by the number of terms. It fails for spheres at zero distance, for conic constants, for aspheric terms on curved surfaces or with too few terms for the order, for the path behind a mirror and for pupils flagged telecentric (refuted).", "quantifier": "for all systems of any length, all orders m >= 2 the index tables can hold, all wavelengths, all start positions and all solvers", "why_tests_cant": "A statement on all Taylor coefficients of a composition of arbitrarily many non-polynomial maps; a test compares finitely many rays with a tolerance that hides missing orders.", "anchors": ["rayopt/elements.py: Element.transfer_poly", "rayopt/elements.py: Interface.propagate_poly", "rayopt/elements.py: Spheroid.intercept_poly", "rayopt/poly_trace.py: PolyTrace.rays", "rayopt/poly_trace.py: PolyTrace.propagate", "rayopt/poly_trace.py: PolyTrace.transform", "rayopt/poly_trace.py: PolyTrace.evaluate"]}
{"id": "C44", "title": "Element groups partition the lens surfaces", "statement": "The groups reported for a system are disjoint, strictly increasing lists of element indices, every solid-material surface belongs to exactly one group, and every group but the last ends with a non-solid surface; a mirror inside glass ends a group although the documentation says it continues (refuted).", "quantifier": "for all systems", "why_tests_cant": "Lists of any length with any material sequence.", "anchors": ["rayopt/system.py: System.groups"]}
{"id": "C45", "title": "Importing a lens table or file yields one element per row with distances attached to the right surface", "statement": "Importing an array/table gives exactly one element per accepted row with the stated parameters, and the stop row is the system stop; importing a ZMX file attaches each thickness to the following surface. The stop named in a ZMX file is not the resulting system's stop (refuted), and a table row with fewer columns is dropped silently.", "quantifier": "for all tables and surface lists", "why_tests_cant": "All file contents.", "anchors": ["rayopt/formats.py: system_from_array", "rayopt/formats.py: system_from_text", "rayopt/zemax.py: zmx_to_system"]}
{"id": "C46", "title": "Sagittal/meridional basis is an orthonormal frame", "statement": "For every direction u (not zero) and reference axis the returned sagittal and meridional vectors are unit, orthogonal to each other and to u, right-handed; on-axis directions get the x axis as sagittal. With a reference axis other than z the on-axis fallback fails (refuted).", "quantifier": "for all nonzero direction vectors", "why_tests_cant": "Continuous inputs with a singular special case.", "anchors": ["rayopt/utils.py: sagittal_meridional", "rayopt/utils.py: normalize"]}
{"id": "C47", "title": "Geometric refocus is the least-squares best focus", "statement": "Moving the image plane by the refocus amount gives a weighted spot size not larger than any other shift of the plane, for every ray set and weights >= 0.", "quantifier": "for all ray sets, weights and alternative shifts", "why_tests_cant": "Optimality over all alternatives.", "anchors": ["rayopt/geometric_trace.py: GeometricTrace.refocus", "rayopt/geometric_trace.py: GeometricTrace.rms"]}
{"id": "C48", "title": "Library look-ups are sound and complete", "statement": "A library look-up returns only items matching every given criterion and finds one whenever one exists; it raises KeyError exactly when no item matches.", "quantifier": "for all library contents and queries", "why_tests_cant": "All database contents.", "anchors": ["rayopt/library.py: Library.get", "rayopt/library.py: Library.get_all"]}
{"id": "C49", "title": "Reported cardinal points agree with traced rays", "statement": "The focal lengths, focal distances, principal plane positions and transverse magnification computed from one traced marginal/chief ray pair describe every other ray: a ray entering parallel to the axis leaves through the reported rear focal point with slope -h/f, a ray leaving parallel entered through the front focal point, both meet their heights in the principal planes, and the image height of a focused object is the magnification times the object height; object and image in air. For different end media the reported focal length and focal distance lack the index factor (refuted).", "quantifier": "for all systems and all pairs of rays", "why_tests_cant": "Universally quantified over systems and over both the rays used for the computation and the rays compared with.", "anchors": ["rayopt/paraxial_trace.py: ParaxialTrace.focal_length", "rayopt/paraxial_trace.py: ParaxialTrace.focal_distance", "rayopt/paraxial_trace.py: ParaxialTrace.magnification"]}
{"id": "C50", "title": "Thermal index change vanishes at the reference temperature", "statement": "The temperature correction of the refractive index is zero at the reference temperature for every glass and wavelength away from the resonance, and defined at every temperature; evaluated without a wavelength it always divides zero by zero (refuted).", "quantifier": "for all thermal coefficients, temperatures, indices and wavelengths", "why_tests_cant": "Continuous parameter space; the default-argument path is never a number for any parameters.", "anchors": ["rayopt/material.py: Thermal.dn_thermal"]}
{"id": "C51", "title": "Aligning a surface makes it deviate the axis as wanted", "statement": "After aligning a surface with a direction for an index ratio, the law of refraction of the ray tracer at its vertex sends the incoming axis into that direction, and the excidence of the surface is that direction; a mirror reflects the axis into it. Aligning a whole system does this for every inner surface with the index ratio across it, moves no element and resets the last tilt. With ratio one and no mirror the axis goes straight on.", "quantifier": "for all placements, directions and index ratios for which Snell's law allows the deviation", "why_tests_cant": "Depends on real valued geometry through Euler angles and numerical tolerances.", "anchors": ["rayopt/elements.py: TransformMixin.align", "rayopt/elements.py: TransformMixin.excidence", "rayopt/system.py: System.align"]}
{"id": "C52", "title": "Rims and edges of lenses", "statement": "Resizing convex surfaces only enlarges rims of inner surfaces, to sizes that already occur; of two successive surfaces around glass, a second one that is not concave outwards ends at least as large as the first, and a convex first one at least as large as the second unless that one is itself convex with glass behind it (in which case a doublet can end with the front too small: refuted). The edge thickness at a surface is the axial distance between its rim and the rim of the previous element, and is defined exactly when every rim lies on its surface.", "quantifier": "for all systems, radii and curvatures", "why_tests_cant": "Sequences of any length with pending state; continuous sizes.", "anchors": ["rayopt/system.py: System.resize_convex", "rayopt/system.py: System.edge_thickness", "rayopt/elements.py: Interface.edge_sag"]}
{"id": "C53", "title": "Reported pupils, magnification and nodal points describe every ray", "statement": "The pupil distances and heights computed from one traced marginal/chief ray pair are the images of the stop: any ray that meets the stop at a fraction of the marginal height meets the entrance and exit pupil planes at that fraction of the reported heights. Every ray through the stop centre changes its slope by the reported angular magnification. In air, a ray aimed at the front nodal point leaves unchanged in slope through the rear one. Rays launched for a conjugate report that conjugate's own pupil distance and radius, scale with the system, and see the medium of the nearest preceding element that has one.", "quantifier": "for all centred systems, stops, conjugates and all pairs of rays", "why_tests_cant": "Quantified over systems, over the rays used for the computation and over the rays compared with.", "anchors": ["rayopt/paraxial_trace.py: ParaxialTrace.pupil_distance", "rayopt/paraxial_trace.py: ParaxialTrace.pupil_height", "rayopt/paraxial_trace.py: ParaxialTrace.nodal_distance", "rayopt/paraxial_trace.py: ParaxialTrace.rays", "rayopt/system.py: System.refractive_index"]}
{"id": "C54", "title": "Wave front errors are path length differences to a reference sphere", "statement": "The error reported for a ray is the difference, in wavelengths, between the optical path of the reference ray and that of the ray, measured from the object wave front to the sphere of the given radius about the image of the reference ray. The reference ray has error zero. If all rays meet the reference image point with equal optical path the errors are all zero. For an object at infinity, the start points may be moved along the rays without changing the result.", "quantifier": "for all systems of placed and tilted elements, ray bundles, reference rays and sphere radii", "why_tests_cant": "Equality of path lengths is quantified over all bundles and radii; tests check single perfect systems at single radii.", "anchors": ["rayopt/geometric_trace.py: GeometricTrace.opd"]}
{"id": "C55", "title": "The point spread function is a normalised intensity at the stated coordinates", "statement": "The pixel values are non-negative and add up to one. No pixel exceeds the centre value of an error free pupil of the same shape. Adding a constant error changes nothing, whole cycles of tilt shift the pattern cyclically, and the value of a pixel equals the far field intensity of the pupil at the image coordinates returned for it.", "quantifier": "for all grid sizes, paddings, pupil shapes and wave front errors", "why_tests_cant": "A sum over every grid size and wave front is an identity (Parseval) and not reachable by sampling wave fronts.", "anchors": ["rayopt/geometric_trace.py: GeometricTrace.psf"]}
{"id": "C56", "title": "Third order coefficients are the third order of the exact trace", "statement": "For centred systems of refracting conic surfaces, in a plane where the paraxial marginal ray crosses the axis, the exact ray through any pupil point of any field point misses the paraxial image point by the chief ray height times the Seidel error pattern with the column sums of the listed coefficients, up to terms smaller than the cube of the ray size. The transverse list scales them by the image height (its sign is wrong for inverted chief rays: refuted). The Petzval term of a surface is its vertex curvature times the jump of the reciprocal index. A conic is free of spherical aberration for parallel light exactly if its constant is minus the squared index ratio, a sphere exactly for objects at vertex, centre and aplanatic point. The aspheric term is the fourth order departure from the osculating sphere (undefined for a single aspheric term: refuted).", "quantifier": "for all centred conic systems of any length, pupil and field points in two dimensions, all indices and conic constants", "why_tests_cant": "A limit statement over all systems; numerical comparison cannot separate third from higher orders.", "anchors": ["rayopt/elements.py: Spheroid.aberration", "rayopt/paraxial_trace.py: ParaxialTrace.aberrations", "rayopt/paraxial_trace.py: ParaxialTrace.transverse3", "rayopt/geometric_trace.py: GeometricTrace.propagate"]}
{"id": "C57", "title": "Chromatic coefficients are derivatives of the paraxial image", "statement": "Let every index of a centred refracting system change in proportion to its dispersion between the two extreme wavelengths. Where the marginal ray crosses the axis, the derivatives of the marginal and chief ray heights are the sums of the axial and lateral colour coefficients times the chief ray height, provided that elements without material stand in media without dispersion. A stop inside dispersive glass makes the following coefficients wrong (refuted).", "quantifier": "for all centred systems of refracting surfaces of any length, all materials and ray pairs", "why_tests_cant": "A derivative over all systems and materials.", "anchors": ["rayopt/elements.py: Spheroid.aberration", "rayopt/elements.py: Interface.dispersion", "rayopt/paraxial_trace.py: ParaxialTrace.aberrations"]}
{"id": "C58", "title": "Aperture, f-number and resolution figures describe the exact cone of light", "statement": "The numerical aperture is the index times the sine of the angle of the exact ray whose tangent is the paraxial slope. Between finite in-focus conjugates aperture times field height is the same on both sides. For an object at infinity the working f-number and the f-number are half the cosecant and half the cotangent of one angle. Spot radius and Rayleigh range convert with the unit of length; the number of resolvable points counts the field in spot radii only if lengths are in metres (otherwise refuted).", "quantifier": "for all traces, slopes, media and length units", "why_tests_cant": "Identities over all real rays and units; tests print one lens.", "anchors": ["rayopt/paraxial_trace.py: ParaxialTrace.numerical_aperture", "rayopt/paraxial_trace.py: ParaxialTrace.f_number", "rayopt/paraxial_trace.py: ParaxialTrace.working_f_number", "rayopt/paraxial_trace.py: ParaxialTrace.airy_radius", "rayopt/paraxial_trace.py: ParaxialTrace.number_of_points"]}
{"id": "C59", "title": "Apertures are sized to just pass the traced rays", "statement": "After sizing by the paraxial trace every paraxial ray from the field to the pupil stays within every aperture, and one touches each rim. After sizing by a traced ray bundle, tracing it again with clipping on gives the same rays as before without clipping, for every sizing rule that never shrinks below the bundle; with the default rule each aperture is touched by a ray, so any smaller one clips it.", "quantifier": "for all systems (tilted, aspheric), all ray bundles, all elements and all sizing rules", "why_tests_cant": "Quantifies over all bundles, systems and rules.", "anchors": ["rayopt/paraxial_trace.py: ParaxialTrace.resize", "rayopt/geometric_trace.py: GeometricTrace.resize", "rayopt/elements.py: Element.clip"]}
{"id": "C60", "title": "Stop radius, paraxial rays and clipping rays are launched consistently", "statement": "Rays launched exactly from the paraxial trace have its heights and slopes (object in air; refuted if immersed). The stop radius recomputed from the entrance or exit pupil is the one the pupils were computed from: in air the size always comes back, its sign for the stated orientation of the pupil (refuted: immersed object, stop behind an intermediate image, image at infinity). The clipping rays pass through the centre and both ends of the pupil for objects at infinity and round pupils (refuted for asymmetric pupils and finite objects).", "quantifier": "for all systems, stops, pupil kinds, pupil distances and radii of either sign", "why_tests_cant": "Sign and index errors show up only for particular geometries; the statement covers all.", "anchors": ["rayopt/geometric_trace.py: GeometricTrace.rays_paraxial", "rayopt/geometric_trace.py: GeometricTrace.rays_clipping", "rayopt/paraxial_trace.py: ParaxialTrace.update_stop", "rayopt/paraxial_trace.py: ParaxialTrace.update_conjugates", "rayopt/conjugates.py: FiniteConjugate.aim"]}
{"id": "C61", "title": "Glasses of a catalogue file get the dispersion formula and the coefficients of their own record", "statement": "For every AGF file, the lines that are neither blank nor comments are split over the glasses named by NM lines, in order and without loss; each glass's material has the index given by the definition of its formula number (1 Schott, 2 Sellmeier, 3 Herzberger, 5 Conrady, 6, 7, 8, 12, 13) with the ten coefficients of its last CD line, and no index where that definition has none. The same for OSLO GLC lines (formulas 1 to 3) and refractiveindex.info pages (formulas 1 to 7 and 9).", "quantifier": "for all files (lists of lines), all glasses in them, all number parsers, coefficients and positive wavelengths", "why_tests_cant": "Example based tests read one or two catalogues and compare one index; formula numbers, padding, order of lines, range and thermal fields have unbounded combinations, and a wrong pairing or constant only shows for some glasses.", "anchors": ["rayopt/zemax.py: agf_read", "rayopt/zemax.py: agf_to_material", "rayopt/oslo.py: glc_read", "rayopt/oslo.py: glc_to_material", "rayopt/rii.py: rii_to_material", "rayopt/material.py: CoefficientsMaterial.refractive_index"]}
{"id": "C62", "title": "OSLO lens files become the surfaces they list", "statement": "A LEN file is read exactly if each of its lines is well formed. Its elements are then the blocks of lines closed by NXT or END, in order, each with the thickness given last before it and the curvature, aperture, material and stop mark of its own lines; description and scale come from the last LEN and UNI lines. An OLC lens has the blocks cut at NXT, with curvature, conic, aspheric coefficients and material of their own lines. Refuted: thicknesses above 100 become infinite, a thickness is carried over to later surfaces, radius zero is refused in LEN files, stop lines are refused in OLC lenses.", "quantifier": "for all files, all number parsers and material lookups", "why_tests_cant": "Files are arbitrary sequences of commands; order, repetition and omission of lines have unbounded combinations.", "anchors": ["rayopt/oslo.py: olc_to_system", "rayopt/oslo.py: len_to_system"]}
{"id": "C63", "title": "Straightened coordinates are laid onto the folded axis without gaps or stretching", "statement": "Points given along the unfolded axis, ordered by a reference ray, are drawn in the segment between the two vertices their reference point lies between: at the drawn axis point of that path length, moved aside along an orthonormal pair across the segment. Segments meet at the element origins, distances within a segment are kept, axis points never get further apart than along the axis, and paraxial rays are drawn at the vertices, their height aside along the outgoing segment.", "quantifier": "for all systems of elements made by any history of placements, all numbers of rays and points", "why_tests_cant": "Every fold geometry and every position of points relative to the vertices; tests draw one system and look at nothing.", "anchors": ["rayopt/raytrace.py: Trace.from_axis", "rayopt/paraxial_trace.py: ParaxialTrace.plot", "rayopt/system.py: System.path"]}
{"id": "C64", "title": "Cut outlines show every surface and close every solid", "statement": "The cut of a surface with material consists of points of that surface in the cut plane, from rim to rim, placed and tilted with its element. Every drawn line is the profile of an element or a closed outline of two profiles, joined by a corner at the outer height of each rim; between every solid and the next surface with material there is such an outline, and no profile is left out. Curved surfaces without material are drawn flat (refuted).", "quantifier": "for all systems, apertures, numbers of points and both axes", "why_tests_cant": "Combinations of solids, mirrors, gaps and plain elements are unbounded; drawings are not compared by tests.", "anchors": ["rayopt/system.py: System.surfaces_cut", "rayopt/elements.py: Interface.surface_cut", "rayopt/elements.py: Element.surface_cut"]}
{"id": "C65", "title": "Aberration coefficients of the polynomial trace equal the third order surface sums", "statement": "For a centred system of refracting spheres and planes, the five third order values listed by PolyTrace.seidel at a paraxial image plane (spherical aberration, coma, astigmatism, Petzval curvature, distortion) are, scaled with marginal height and chief slope, the sums of the surface contributions computed independently by the paraxial trace times the image height, coma and distortion with opposite sign; for finite objects the transformed polynomials give them without scaling. The fourth coefficient is twice the coma. The fifth order values m1 to m12 are the coefficients of the expansion of the exact landing point in Buchdahl's standard form (pupil radius and azimuth, field), up to an error of seventh order, except that the listed m9 has the wrong sign (refuted with a single sphere). The listing in Buchdahl's notation never terminates: it extends a list with a generator over the same list (refuted).", "quantifier": "for all such systems, orders m >= 3, stop positions, heights and field angles; all inputs for the refutation", "why_tests_cant": "It relates two independent algorithms (polynomial algebra and surface sums) for every prescription; tests compare none of the numbers and never call buchdahl.", "anchors": ["rayopt/poly_trace.py: PolyTrace.seidel", "rayopt/poly_trace.py: PolyTrace.buchdahl", "rayopt/poly_trace.py: PolyTrace.transform", "rayopt/paraxial_trace.py: ParaxialTrace.aberrations"]}
{"id": "C66", "title": "Analysis curves: ray fans, spots through focus and field curves mean what their axes say", "statement": "The transverse ray plots show, for the rays before and behind the reference ray of the tee pattern, landing errors against positions in the entrance pupil plane, both relative to the reference ray; the spot diagrams show where the rays cross the defocused planes; the tangential and sagittal field curves are the unique plane where chief and neighbouring ray meet in that projection, the spherical aberration curve the plane where the ray crosses the axis. rays_line sends chief, meridional and sagittal ray of each field point to the same place of the three bundles, each field point starting from the pupil of the previous one. For small pupil and field the spherical aberration, distortion, tangential and sagittal curves start with exactly the printed third order sums (times -height*index/slope). The focus for longitudinal colour has the opposite sign for rays travelling backwards, and Analysis(run=True) is a TypeError (both refuted).", "quantifier": "for all bundles, systems of centred conic refracting surfaces, field points, ray distances and sampling numbers", "why_tests_cant": "The curves only reach a plot; no test looks at any number in them, and the third order limit needs a limit over all prescriptions.", "anchors": ["rayopt/analysis.py: Analysis.transverse", "rayopt/analysis.py: Analysis.spots", "rayopt/analysis.py: Analysis.longitudinal", "rayopt/analysis.py: Analysis.__init__", "rayopt/geometric_trace.py: GeometricTrace.rays_line"]}
{"id": "C67", "title": "Contrast curve is the overlap of the sheared pupil, encircled energy counts the light near the centroid", "statement": "The contrast curve drawn by the analysis is the modulus of the normalised autocorrelation of the pupil function with its wavefront error: at entry k it is |sum of exp(2 pi i (difference of the wavefront and its copy sheared by k pupil samples))| over the open pixels common to both, divided by the number of open pixels. It is therefore 1 at zero frequency, never exceeds the geometric overlap of the pupil with its sheared copy, reaches it when the wavefront is perfect, and the frequency written on the axis is the shear of the pupil divided by wavelength and radius of the reference sphere. Entry k of the encircled energy is the light nearer to the centroid than k + 1 pixels, never falls and ends at 1; it is drawn at radius k pixels, one pixel too far in (refuted with a witness).", "quantifier": "for all pupil samplings, paddings of at least 2 (contrast), wavefronts with at least one open pixel, wavelengths and radii", "why_tests_cant": "No test evaluates these curves; the identity with the pupil overlap is over all wavefronts, and the off-by-one radius is invisible at the resolution of a plot.", "anchors": ["rayopt/analysis.py: Analysis.opds", "rayopt/geometric_trace.py: GeometricTrace.psf", "rayopt/special_sums.py: polar_sum"]}
{"id": "C68", "title": "Optical path of neighbouring rays: Hamilton's relation, Malus' theorem, and what the wavefront error says about the ray", "statement": "Along any differentiable family of exact rays the optical path collected by the trace up to an element changes by index times direction times displacement at the end minus the same product at the launch, whatever happens at the refracting and reflecting surfaces between. For spheres, conics and planes, tilted or not, one ray that grazes nothing suffices: its neighbours arrive, depend differentiably on the launch, and the relation holds; surfaces of equal path from one object point or wave front are perpendicular to the rays. The wavefront error reported by opd has the matching slope: when the ray moves by dX on the reference sphere, the error changes by -n/m times the distance of the ray from the reference image along dX, m being the distance from sphere to that point of the ray.", "quantifier": "for all systems with good placements and positive indices, all families of rays (the general relation includes aspheres), radii, after/image indices, wavelengths", "why_tests_cant": "It relates two independently computed outputs (path sums and ray positions) through derivatives over all prescriptions; no finite set of rays can show it.", "anchors": ["rayopt/geometric_trace.py: GeometricTrace.opd", "rayopt/geometric_trace.py: GeometricTrace.propagate", "rayopt/system.py: System.propagate", "rayopt/elements.py: Spheroid.intercept", "rayopt/elements.py: Interface.refract"]}
{"id": "C69", "title": "Lagrange invariant of exact rays, conservation of etendue, Abbe sine condition", "statement": "Along an exactly traced ray, index times (dy . eu - ey . du) of any two neighbouring rays is the same behind every element: the exact (not paraxial) Lagrange invariant, through refraction, reflection, tilts and aspheres. Consequently the phase space volume of four independent neighbours between the launch plane and a later plane is conserved, and if an object point is imaged sharply by a cone of rays and its neighbour is imaged sharply to first order, then n a . U - n' b . U' is constant over the cone: the sine condition which numerical_aperture and the pupil computations take for granted.", "quantifier": "for all systems with good placements and positive indices, all differentiable families of rays; for spheres, conics and planes only the base ray has to graze nothing", "why_tests_cant": "It is an identity between derivatives of the traced rays for every prescription; a test can at best compare finite differences on single systems.", "anchors": ["rayopt/paraxial_trace.py: ParaxialTrace.numerical_aperture", "rayopt/geometric_trace.py: GeometricTrace.propagate", "rayopt/system.py: System.propagate", "rayopt/elements.py: Spheroid.intercept", "rayopt/elements.py: Interface.refract"]}
{"id": "C70", "title": "Rotational symmetry of a coaxial system and the skew invariant", "statement": "In a system whose elements are centred on one axis and not tilted (or turned round, as behind a mirror), turning or reflecting the launch about the axis turns or reflects every point and direction of the traced ray and leaves every optical path as it was; no ray is lost or gained by it. A ray in a plane through the axis stays in it, a ray on the axis stays on it, and index times the moment of the ray about the axis (the skew invariant) is the same behind every element, for aspheres and mirrors too.", "quantifier": "for all coaxial systems with good placements and positive indices, all rays, all rotations and reflections about the axis, with and without clipping", "why_tests_cant": "Quantifies over all angles, all rays and all prescriptions.", "anchors": ["rayopt/geometric_trace.py: GeometricTrace.propagate", "rayopt/system.py: System.propagate", "rayopt/elements.py: Spheroid.intercept", "rayopt/elements.py: Spheroid.surface_normal", "rayopt/elements.py: Interface.refract", "rayopt/elements.py: Element.clip"]}
{"id": "C71", "title": "The homogeneous matrices of transformations.py are the maps they are named after", "statement": "A reflection matrix takes a point to the one point for which the plane halves the segment and the segment is along the normal; rotations turn about the given point, scalings stretch about the origin in all or in one direction, projections end in the plane and on the line along the direction or through the viewer (no image beside the viewer), and the pseudo perspective followed by the orthogonal projection is the perspective and keeps the order of depths in front of the viewer. Clipping sends exactly the box or the part of the pyramid between near and far to the cube. Shears move along the direction by the distance from the plane times the tangent; the crystal axes have the lengths and angles of the cell; concatenation is composition; vector norms and angles are the Euclidean ones. Degenerate arguments give no result. Comparison accepts all multiples of a matrix with non-zero corner, but also different maps, and rejects a perspective clipping matrix compared with itself.", "quantifier": "for all points, planes, directions, factors, angles, boxes and cells, all lists of matrices", "why_tests_cant": "Each statement is an equivalence over all points of space and over all parameters.", "anchors": ["rayopt/transformations.py: reflection_matrix", "rayopt/transformations.py: rotation_matrix", "rayopt/transformations.py: scale_matrix", "rayopt/transformations.py: projection_matrix", "rayopt/transformations.py: clip_matrix", "rayopt/transformations.py: shear_matrix", "rayopt/transformations.py: orthogonalization_matrix", "rayopt/transformations.py: concatenate_matrices", "rayopt/transformations.py: is_same_transform", "rayopt/transformations.py: angle_between_vectors", "rayopt/transformations.py: vector_norm"]}
{"id": "C72", "title": "Conic surfaces image their foci without aberration", "statement": "In the exact ray trace (no paraxial approximation, whole aperture up to the rim of the conic): a refracting conic with conic constant -(n0/n)^2 sends every ray parallel to the axis through the point n/(c(n-n0)) with equal optical path, and it is the only conic that does so for even one off-axis ray; with conic constant -(n/n0)^2 rays through the focus leave parallel; a conic mirror sends every ray through one focus through the other with constant path, a paraboloid makes it parallel; a refracting sphere is aplanatic (images its conjugate points sharply and satisfies the sine condition) and leaves rays through the centre alone. The full system trace [start plane, surface, image plane] puts every collimated ray at the origin of the image plane.", "quantifier": "all curvatures, conic constants, indices, rays (positions and directions), foci on either side", "why_tests_cant": "A test can trace a handful of rays through one lens and see small numbers; only a proof shows that the image is exact for all rays and all shapes, and that only that conic constant works.", "anchors": ["rayopt/elements.py: intercept", "rayopt/elements.py: refract", "rayopt/elements.py: propagate", "rayopt/system.py: propagate", "rayopt/geometric_trace.py: propagate"]}
{"id": "C73", "title": "Restarted propagations, eigenrays, beam classification and sizing, freshness of cached pupils", "statement": "A beam propagation restarted at element k of a system whose elements from k on were exchanged gives the rows of a full propagation, and over any range of an unchanged system it changes nothing; the same holds for paraxial rays if no element mixes the axes (it is false with elements at an azimuth). The track length is the axial coordinate difference of first and last surface, bounded by their distance and by the path (equal to the path on a straight axis, but 0 for a path folded sideways). An eigenray leaves the system as its eigenvalue times itself, and in aligned systems eigenvalues of rays with non-zero Lagrange product are reciprocal. diverging and confined classify beams as their names say; matrices with equal sections that do not mix the axes are exactly the rotationally symmetric ones (is_stigmatic also accepts a crossed 45 degree cylinder pair). resize gives every element the stated multiple of the spot radius, beyond which the power density is below exp(-2 waists^2). pupil() answers with the pupil of the present system if every change is followed by update() and keywords do not vary; otherwise it gives the old answer. _focal_length_solve gives n f instead of f for every plano-convex lens in air.", "quantifier": "all systems, restart positions and ranges, beams, waist positions, histories of requests, changes and updates", "why_tests_cant": "Restart and cache statements are about all histories and all positions; classification is an equivalence over all propagation distances.", "anchors": ["rayopt/gaussian_trace.py: GaussianTrace.propagate", "rayopt/gaussian_trace.py: GaussianTrace.diverging", "rayopt/gaussian_trace.py: GaussianTrace.confined", "rayopt/gaussian_trace.py: GaussianTrace.is_stigmatic", "rayopt/gaussian_trace.py: GaussianTrace.resize", "rayopt/paraxial_trace.py: ParaxialTrace.propagate", "rayopt/paraxial_trace.py: ParaxialTrace.track_length", "rayopt/paraxial_trace.py: ParaxialTrace.eigenrays", "rayopt/paraxial_trace.py: ParaxialTrace._focal_length_solve", "rayopt/system.py: System.pupil"]}
{"id": "C74", "title": "Interpolated and random rotations, quaternions of matrices, and the trackball", "statement": "quaternion_slerp between two rotations that differ turns about one fixed axis with constant speed from the first to the second, by at most half a turn in all if the shortest path is asked for, with extra full turns for an even spin, and continues so outside of 0..1; it ignores the lengths of its arguments (with an odd spin it does not give a unit quaternion). random_quaternion always gives a unit quaternion and every unit quaternion is a possible result. quaternion_from_matrix by eigenvectors gives for every rotation, half turns included, the unit quaternion with non-negative real part of that rotation. The angles of euler_from_quaternion give the rotation back. Trackball: a window point is put above itself on the visible half sphere or on its rim; a drag turns by the half turn about the clicked followed by the half turn about the current point, so only its end counts, interrupting it makes no difference, and with a constraint axis it turns about that axis; the axis chosen is the first whose great circle point is nearest; next continues with the last step for any number of times; through any sequence of events the state stays a rotation, and no event fails if the ball has a size and no axis points straight away from the viewer (it raises for that axis and for an empty list of axes).", "quantifier": "all quaternions, fractions, spins; all random numbers; all rotation matrices; all sequences of trackball events", "why_tests_cant": "Constant speed about one axis is a statement about all fractions, surjectivity about all rotations, and the trackball invariants about all event sequences.", "anchors": ["rayopt/transformations.py: quaternion_slerp", "rayopt/transformations.py: random_quaternion", "rayopt/transformations.py: random_rotation_matrix", "rayopt/transformations.py: quaternion_from_matrix", "rayopt/transformations.py: euler_from_quaternion", "rayopt/transformations.py: quaternion_real", "rayopt/transformations.py: quaternion_imag", "rayopt/transformations.py: Arcball", "rayopt/transformations.py: arcball_map_to_sphere", "rayopt/transformations.py: arcball_constrain_to_axis", "rayopt/transformations.py: arcball_nearest_axis"]}
{"id": "C75", "title": "Matrices taken apart and put together", "statement": "compose_matrix of scale, shear, angles, translation and perspective is the map that scales, shears, turns about the static axes and moves a point, followed by the projective map with the given last row; missing parts are neutral. decompose_matrix finds, for every matrix with non-vanishing last entry and invertible 3x3 block, parts that compose to the given matrix up to its last entry: scales all positive or all negative by the sign of the determinant, angles in their ranges, gimbal lock included. Singular matrices and those with a last entry below the tolerance are refused. The parts of a composed matrix come back if the scales have one sign, the angles are in range and off the gimbal lock. A last row below the tolerance is silently lost.", "quantifier": "all 4x4 matrices, all parts", "why_tests_cant": "Exact reconstruction for every invertible matrix is a statement about a continuum; the discrete tests take one example.", "anchors": ["rayopt/transformations.py: compose_matrix", "rayopt/transformations.py: decompose_matrix", "rayopt/transformations.py: inverse_matrix"]}
{"id": "C76", "title": "Elementary transformations recognised from their matrix", "statement": "Given eigenvectors of the matrix, reflection_from_matrix, rotation_from_matrix, scale_from_matrix, projection_from_matrix and shear_from_matrix return parameters whose matrix is the given one: mirror plane, axis and angle up to a common sign, factor with origin and direction, plane and direction of a parallel projection, plane and viewer of a perspective, angle, direction and plane of a shear; or they give no finite result because the eigenvector picked for the point lies at infinity. This needs the parameter to be away from the tolerance: a rotation angle with 1 - cos a >= 1e-8, a scale factor 1e-8 off one, a viewer not at unit distance from the plane. It fails for small rotations (a wrong axis and the angle zero), for a viewer at unit distance (refused), for planes through the origin (0/0), and for pseudo perspectives when the eigenvector of -1 is last.", "quantifier": "all parameters; all results of the eigenvalue routine that are eigenpairs and complete", "why_tests_cant": "The result depends on the order and choice of eigenvectors the numerical library returns; the proof covers every choice.", "anchors": ["rayopt/transformations.py: reflection_from_matrix", "rayopt/transformations.py: rotation_from_matrix", "rayopt/transformations.py: scale_from_matrix", "rayopt/transformations.py: projection_from_matrix", "rayopt/transformations.py: shear_from_matrix"]}
{"id": "C77", "title": "Registered point sets are matched as well as any rigid motion can", "statement": "superimposition_matrix returns, for any two sets of at least three points in space and with either solver (Kabsch, Horn), a rotation with a translation whose sum of squared deviations is least among all rigid motions; mirror images do not make it a reflection. If the second points are an exact rigid or similar image of the first ones, every point is mapped to its partner. With scale=True the image of the first points has the centroid and the spread of the second ones and no motion of the same scale does better; but a motion of another scale may, contrary to the docstring. The affine branch returns exactly the affine map if the points do not lie in a plane; for three points, which it accepts, it may flatten a triangle that is to be mapped to itself. Fewer than three points or different numbers are refused.", "quantifier": "all point lists, all results of svd, eigh and pinv that meet their contracts", "why_tests_cant": "Optimality over all rotations and translations cannot be tested; degenerate point sets make the decomposition ambiguous and the proof covers every choice.", "anchors": ["rayopt/transformations.py: affine_matrix_from_points", "rayopt/transformations.py: superimposition_matrix"]}
{"id": "C78", "title": "Catalogue files reach their importer and their entries keep name, section, data and formula", "statement": "A catalogue file goes to the importer of its ending and to no other. Every glass of a CodeV file, every readable page of refractiveindex.info and every row of an OSLO lens directory becomes exactly one item, in order: CodeV names lose the catalogue identification and get one of the known dispersion formulas with all coefficients; pages are filed under the last divider before their book in their shelf, and an unreadable page costs only itself; lenses are filed under the longest listed abbreviation their part number begins with and get the consecutive pieces of the data file. Refreshing an unchanged file any number of times adds its catalogue once where the importer records the file; the text made of a section's bytes is their Python literal, different for different bytes. It fails where: the OSLO importers do not record the file, so every refresh adds the whole catalogue again; OSLO names are bytes and section descriptions begin with b and a quote; listed offsets are ignored; the CodeV material has another name than its item unless the identification has two letters.", "quantifier": "all file names, all documents and tables", "why_tests_cant": "The errors need particular file contents or repeated refreshes; the statements hold for documents of any size and content.", "anchors": ["rayopt/library_items.py: Catalog.parse", "rayopt/oslo.py: dir_read", "rayopt/codev.py: codevxml_read", "rayopt/codev.py: codevxml_to_material", "rayopt/rii.py: yml_read"]}
{"id": "C79", "title": "Plane mirrors and plane layers act as known in closed form", "statement": "Any number of plane mirrors at any tilts images every point sharply: rays whose lines pass through a point leave on lines through one common point, at a distance given by the reported path. Three mirrors at right angles reverse every ray, and the outgoing path is the point reflection of the incoming one in the corner; two mirrors deviate by an angle that depends on the angle between them only. In a stack of plane layers with one normal, index times the direction component along the layers is kept, rays get through exactly if they are nowhere beyond the critical angle, the direction is restored in a medium of the starting index, and the sideways displacement is the sum of the layer contributions, for one plate the textbook value.", "quantifier": "all numbers of elements, tilts, indices, rays", "why_tests_cant": "A statement about all rays and all numbers of surfaces at once; tests trace single rays through single systems.", "anchors": ["rayopt/system.py: System.propagate", "rayopt/elements.py: Interface.propagate", "rayopt/elements.py: Interface.refract", "rayopt/elements.py: Element.intercept", "rayopt/geometric_trace.py: GeometricTrace.rays_given"]}
{"id": "C80", "title": "The Seidel sums obey the stop shift rules, the powers of aperture and field, and the symmetry of the lens", "statement": "For coaxial systems of any length the tabulated third order and colour coefficients satisfy the stop shift equations: if the chief ray is replaced by itself plus q times the marginal ray (which is what moving the pupil at fixed object and marginal ray does), spherical aberration, Petzval term and axial colour stay, and the others change by the known polynomials in q. So with spherical aberration there is exactly one stop position without coma, with axial colour exactly one without lateral colour, and the sums are independent of the stop exactly under the textbook conditions. Enlarging aperture and field by a and b multiplies the transverse aberrations by a^3, a^2 b, a b^2, a b^2, b^3, a and b. In the reversed system, entered by the rays that left, rays retrace their path and every surface contributes the opposite amount; hence a lens that is its own reverse, used at magnification -1, has no coma, no distortion and, between media free of dispersion, no lateral colour.", "quantifier": "all systems of any length (aspheres and mirrors in vacuum included in the stop shift), all rays, shifts and factors", "why_tests_cant": "Identities between the results for infinitely many stop positions, apertures and fields; the code has no second formula to compare with.", "anchors": ["rayopt/elements.py: Spheroid.aberration", "rayopt/paraxial_trace.py: ParaxialTrace.aberrations", "rayopt/paraxial_trace.py: ParaxialTrace.propagate", "rayopt/paraxial_trace.py: ParaxialTrace.rays", "rayopt/system.py: System.reverse"]}
{"id": "C81", "title": "Concentric spheres conserve the moment of a ray, act alike in all directions, and a ball lens turns a ray by twice the difference of two angles", "statement": "When every surface that acts on a ray is a sphere about one point C, and is met on the half that holds its vertex: index times (P - C) x U is the same behind every surface, so the index times the distance of the ray from C is conserved and the ray stays in one plane through C; the trace of the ray turned about C by any rotation or reflection, whether or not that keeps the optical axis, is the turned trace, with the same optical paths; and a ball of radius R and index nb in a medium of index n turns a ray that passes at distance h from the centre by exactly 2 (asin(h/R) - asin(n h/(nb R))), towards the centre, and lets it leave at the same distance. On the far half the last condition fails: the normal is computed from x^2 + y^2 alone, and a forward ray that first meets the sphere behind its centre is refracted about a wrong normal, inside the clipping radius.", "quantifier": "all positions, tilts and numbers of surfaces, mirrors and layers included, all rays, indices and radii; every external solver", "why_tests_cant": "Invariants over arbitrarily many surfaces and all rotations about a point; tests trace a few rays through one lens.", "anchors": ["rayopt/elements.py: Spheroid.intercept", "rayopt/elements.py: Spheroid.surface_normal", "rayopt/elements.py: Interface.refract", "rayopt/elements.py: Element.propagate", "rayopt/system.py: System.propagate"]}
{"id": "C82", "title": "Fermat's principle: a traced ray makes the optical path stationary, and a broken line that makes it stationary is traced", "statement": "Vary the corner points of a traced ray along any differentiable curves in space, each corner on a refracting or reflecting surface staying on that surface: the sum of index times segment length changes to first order by n_last U_last . dP_last - n_first U_first . dP_first alone, the path the code accumulates being its value, so with fixed ends the path is stationary. Conversely, a broken line through the elements whose corners are on the surfaces, on the branch that the intersection code selects and on the side of the surface to which the element sends light, and whose path is stationary for every such variation with fixed ends, is exactly the ray that the code traces from its first point and direction.", "quantifier": "all element sequences with tilts, mirrors, conics and aspheres, all rays, all differentiable variations", "why_tests_cant": "A calculus of variations statement over all curves of corner points; a test varies a few points by finite steps.", "anchors": ["rayopt/elements.py: Interface.refract", "rayopt/elements.py: Spheroid.surface_normal", "rayopt/elements.py: Spheroid.intercept", "rayopt/elements.py: Element.propagate", "rayopt/system.py: System.propagate"]}
{"id": "C83", "title": "The printed reports show the quantities of the traces under the right labels", "statement": "In the element table of a system each line of a surface shows its distance, the reciprocal of its curvature (infinite for a plane), twice its radius and, if it has a material that is no mirror, the index in which every traced ray leaves it; a table is printed exactly if every element is a registered class. A coefficient report exists exactly if each line has one number per label and belongs to a surface; the lines carry the numbers of their elements, the last one the column sums, and the third order and paraxial reports put each quantity under its own name. The relative path of the axis ray in a centred refracting system changes from one element to the next by (index - 1) times the distance. The polynomial reports list exactly the monomials below the cutoff, each with its number, its exponents and its coefficient. Two pupils or conjugates with the same text are the same. Refuted: a system with a plain Element can be printed; a mirror's line shows the index of the rays; the axis ray has no relative path.", "quantifier": "all systems, wavelengths, rays, coefficient arrays, polynomial degrees up to the 16 bit limit, cutoffs, pupils and conjugates", "why_tests_cant": "The reports are compared with stored text for a few systems at best; a label over the wrong column or a sum over the wrong lines prints without error.", "anchors": ["rayopt/system.py: System.base_text", "rayopt/raytrace.py: Trace.print_coeffs", "rayopt/paraxial_trace.py: ParaxialTrace.print_trace, print_transverse3", "rayopt/geometric_trace.py: GeometricTrace.print_trace", "rayopt/poly_trace.py: PolyTrace.print_trace, print_names, print_seidel", "rayopt/pupils.py: Pupil.text", "rayopt/conjugates.py: Conjugate.text", "rayopt/name_mixin.py: NameMixin.typeletter"]}
{"id": "C84", "title": "Coddington's equations: narrow pencils at conic surfaces have exactly the sagittal and tangential vergences of the classical equations", "statement": "Around a ray in the meridional plane that meets a conic surface (refracting, reflecting or without material) at any height and angle, the traced rays of a neighbouring pencil are differentiable and: if the rays shifted out of the plane have vergence L before the surface they have after it the vergence L' with n L' = n0 L + ks (n cos I' - n0 cos I); if those shifted within the plane have vergence L, they have L' with n cos^2 I' L' = n0 cos^2 I L + kt (n cos I' - n0 cos I). Here ks and kt are c/q and c/q^3, q = sqrt(1 - k c^2 r^2), which are the curvatures of the surface that the code intersects. Rays through one point at distance s have vergence 1/s, vergence 0 means parallel, a pencil has vergence L exactly if its rays pass the point at distance 1/L by a distance of higher than first order, and over a distance d the vergence becomes L/(1 - d L).", "quantifier": "all conics, indices, mirrors, chief rays in the meridional plane with non-grazing incidence, all differentiable pencils, clipped or not", "why_tests_cant": "A statement about limits of families of rays at every height and angle; a finite difference test cannot separate the astigmatic foci from higher orders.", "anchors": ["rayopt/elements.py: Interface.refract", "rayopt/elements.py: Spheroid.surface_normal", "rayopt/elements.py: Spheroid.intercept", "rayopt/elements.py: Element.propagate"]}
{"id": "C85", "title": "In folded systems the 4x4 matrices are the first derivative of the exact trace along the bent axis", "statement": "Take conic surfaces, screens and mirrors whose directions and tilts (first angle) lie in the y-z plane, such that the axis ray, traced, goes from vertex to vertex along the directions of the elements. Then for every differentiable pencil around the axis ray the heights and index times slopes of the exact trace, counted along x and across x and the axis ray (turned over by each mirror), change to first order exactly as the paraxial matrices (Massey and Siegman's, with cos theta and the refracted cosine) of the elements say, at every element. Needed: a surface tilt is exactly zero or above the allclose tolerance, mirrors stand in air. Refuted: a tilt by the second angle does not enter the matrices, so a mirror tilted that way has, in the trace, another power than its matrix.", "quantifier": "all numbers of elements, tilts with positive cosine, curvatures, conic constants, indices, distances, mirrors and screens, all differentiable pencils; every external solver", "why_tests_cant": "A limit statement for every oblique system; tests compare the paraxial with the exact trace only for centred lenses.", "anchors": ["rayopt/elements.py: Spheroid.paraxial_matrix", "rayopt/elements.py: Element.paraxial_matrix", "rayopt/elements.py: TransformMixin.update", "rayopt/elements.py: Interface.refract", "rayopt/system.py: System.propagate, propagate_paraxial"]}
{"id": "C86", "title": "The reported focal lengths and principal planes obey the formulas of first order design", "statement": "For systems of untilted refracting surfaces (conics and aspheres) in air the figures reported by the paraxial trace satisfy: the power is the sum over the surfaces of index step times curvature times the height of a ray that entered parallel to the axis, divided by its entrance height; a lens of two surfaces obeys the lens maker's equation with thickness, and its focal distances and principal distances have the textbook values; two groups traced separately and put one behind the other have 1/f = 1/fa + 1/fb - sep/(fa fb) with sep the distance of the facing principal planes; planes x in front of the front and x' behind the rear focal point are conjugate exactly if x x' = f^2, with magnification -f/x; object and image distances from the principal planes obey 1/s + 1/s' = 1/f with magnification -s'/s.", "quantifier": "all numbers of surfaces, indices, curvatures, aspheric terms, distances, all traced rays, both axes, all wavelengths", "why_tests_cant": "The formulas hold for every prescription; tests check one triplet against stored numbers.", "anchors": ["rayopt/paraxial_trace.py: ParaxialTrace.focal_length, focal_distance, principal_distance, propagate", "rayopt/elements.py: Spheroid.paraxial_matrix", "rayopt/system.py: System.paraxial_matrix"]}
{"id": "C87", "title": "A prism deviates every ray by at least the angle of minimum deviation, which gives its index", "statement": "A ray traced through two plane surfaces whose normals enclose the angle A, from one medium through a denser one back into the first, in the principal section or skew to it, is deviated by at least 2 asin(r sin(A/2)) - A, where r is the ratio of the indices; r sin(A/2) <= 1 for every ray that gets through. Equality holds exactly if A = 0, the indices are equal or the ray in the glass runs along the bisector of the two normals. For that ray the index is sin((A + D)/2)/sin(A/2) with D the deviation of the traced ray.", "quantifier": "all prism angles, orientations and distances, all indices, all rays (skew ones included) that pass, clipped or not, any external solver", "why_tests_cant": "A minimum over all rays in three dimensions; tests can only sample rays.", "anchors": ["rayopt/elements.py: Interface.refract", "rayopt/elements.py: Spheroid.intercept", "rayopt/elements.py: Element.propagate", "rayopt/elements.py: TransformMixin.from_normal", "rayopt/system.py: System.propagate"]}
{"id": "C88", "title": "An axis is reported stable exactly if rays stay bounded over any number of round trips; two mirrors are stable exactly for 0 < g1 g2 < 1", "statement": "If one passage through the elements ends in the medium in which it began, the rays of k passages are the k-th power of the reported matrix applied to the initial ray, for every k. All rays of all numbers of passages stay within a fixed multiple of their initial height and slope exactly if the axis is reported stable or the matrix returns every ray, or every ray inverted. For two mirrors in air at distance d with any tilt in the y-z plane the half trace is 2 g1 g2 - 1 with g = 1 + d c cos(tilt) along x and 1 + d c/cos(tilt) along y, and the axis is reported stable exactly for 0 < g1 g2 < 1; rays stay bounded exactly then or if both g vanish. Refuted: a confocal resonator keeps all rays bounded but is not reported stable; the attribute real is true of every system, also if the reported eigenvalues are not real.", "quantifier": "all systems without azimuth of tilt, all numbers of round trips, all rays, both axes; all mirror curvatures, aspheric terms, tilts and lengths", "why_tests_cant": "Boundedness over unlimited numbers of round trips cannot be run; tests do not cover resonators at all.", "anchors": ["rayopt/gaussian_trace.py: GaussianTrace.stable, real, m, eigenvalues", "rayopt/system.py: System.paraxial_matrix, propagate_paraxial", "rayopt/elements.py: Spheroid.paraxial_matrix"]}
{"id": "C89", "title": "The closed form finite_object_fast is the general change of variables of a finite object", "statement": "For all coefficient vectors s, t of every order and all r, u, w the result of finite_object_fast is, as polynomials in x.x, f.f and x.f, the pair r S - u T and -w T of the given polynomials evaluated at the invariants of the ray with position r x and slope -(u x + w f), so that the ray position it describes is S p + T q for that ray. It needs no bound on the multinomials. Over the reals it equals, coefficient by coefficient, the result of simplex_transform with the matrix built by PolyTrace.transform, and so equals PolyTrace.transform itself for pupil slope -u and field slope -w whenever the field slope is not smaller.", "quantifier": "all commutative coefficient rings, all orders, all coefficients, all r, u, w, all points; equality with the general transform for all orders within its 16 bit bound", "why_tests_cant": "The function is compiled, never called and untested; the agreement of three nested loops with the carry enumeration of the general transform is an identity between polynomials of every order.", "anchors": ["rayopt/simplex_accel.pyx: finite_object_fast", "rayopt/simplex_accel.pyx: simplex_transform", "rayopt/poly_trace.py: PolyTrace.transform"]}
{"id": "C90", "title": "Light retraces its path through the reversed system", "statement": "Trace a ray through a centred system of refracting spheres, conics and planes (with or without clipping), stop it where it meets the last surface, turn it round and send it through System.reverse() of the system. The exact trace of the turned ray passes through the same points in the opposite order, with incoming and outgoing directions exchanged and the indices of the same media, has the same optical path length between them, and arrives at the launched point, in the opposite direction. The conditions are that each surface is met on the sheet of its sag along its normal and that no leaving direction is asymptotic.", "quantifier": "all centred systems without mirrors, aspheres or stops without material, all rays, wavelengths and indices", "why_tests_cant": "a test reverses one lens and one ray; the claim is the reversibility of every refracting system, which needs an induction over the surfaces", "anchors": ["rayopt/system.py: System.reverse", "rayopt/system.py: System.propagate", "rayopt/elements.py: Spheroid.intercept", "rayopt/elements.py: Interface.refract", "rayopt/elements.py: Spheroid.reverse"]}
{"id": "C91", "title": "Chains of stigmatic surfaces image without aberration", "statement": "Take a system whose surfaces are each used between a pair of their perfect conjugates: refracting ellipsoids and hyperboloids between parallel light and a focus, conic mirrors between their foci, paraboloid mirrors, spheres between their aplanatic points or about their centre, plane mirrors, and surfaces without material; the image of each is the object of the next, and each may be placed and turned in space at will. Then every exactly traced ray of the object bundle, at any aperture, belongs to the image bundle behind the last surface, and the optical path between object and image is the same for all rays. On a screen through the image point all rays end in exactly one point.", "quantifier": "all systems and placements of such surfaces, all rays of the bundle that meet the vertex sheets, all indices and wavelengths", "why_tests_cant": "a test traces a few rays through one telescope; the claim covers any number of surfaces and any aperture", "anchors": ["rayopt/system.py: System.propagate", "rayopt/elements.py: Spheroid.intercept", "rayopt/elements.py: Interface.refract", "rayopt/elements.py: TransformMixin.to_normal", "rayopt/elements.py: TransformMixin.from_normal"]}
{"id": "C92", "title": "ZMX texts are read as written", "statement": "A ZMX file is a text. Whatever line ends, blank lines and white space around the lines it has, it is read as the list of its lines, and each line has at most one meaning: a unit, a name, wavelengths, a coating or a surface command. If every line means something, the System read has the surfaces those commands make, the coating last given for each surface, and the scale, name and wavelengths last given or else the defaults. The reading fails exactly if some line has one of the known commands without the arguments it needs. Any prescription written as such a text, with any way of writing numbers that the reader inverts, is read back: every surface with its curvature, conic, aspheric coefficients, glass, edge and stop mark, behind the thickness of the surface before.", "quantifier": "all texts, all prescriptions of any number of surfaces and coefficients, all layouts, all glass lookups and all number formats that the reader inverts", "why_tests_cant": "files differ in line ends, indentation, order and number of commands without bound; tests read a few sample files", "anchors": ["rayopt/zemax.py: zmx_to_system"]}
{"id": "C93", "title": "The Radau and Lobatto pupil patterns average polynomials exactly", "statement": "gr_roots(n) and gl_roots(n) return n distinct nodes, the first at -1 (and for Lobatto the last at 1), the others strictly inside, with positive weights of sum 2. The rules integrate every polynomial of degree at most 2 n - 2 (Radau) or 2 n - 3 (Lobatto) over [-1, 1] exactly, for every n, and no choice of n points with the same ends and of weights is exact to one degree more. Consequently the assertion in interval_to_circle never fires, and with the 'radau' and 'lobatto' patterns the weighted sum over the rays of any polynomial in the pupil coordinates that is even in x and of degree below 2 n is exactly its average over the disc; for N requested rays this holds wherever the square of the degree is at most 4 N. It is false for polynomials that are odd in x, since the rays cover only one half of the pupil (refuted).", "quantifier": "all n, all polynomials up to the stated degree, all root finders that find all zeros of polynomials with only real zeros", "why_tests_cant": "tests compare a few low orders in floating point; exactness for every order needs orthogonality, the interlacing of the zeros and the kernel of the Legendre polynomials", "anchors": ["rayopt/utils.py: gr_roots", "rayopt/utils.py: gl_roots", "rayopt/utils.py: interval_to_circle", "rayopt/utils.py: pupil_distribution"]}
{"id": "C94", "title": "Colour: Sellmeier glasses disperse normally, lenses focus blue closer than red, and contact lenses are achromatic exactly if their powers over Abbe numbers cancel", "statement": "With positive strengths, the index given by each Sellmeier formula (poles by wavelength or squared, interleaved or transposed, with or without offset) strictly falls with the wavelength over every interval free of poles, so Material.vd is positive where the index is at least one; with poles only at shorter wavelengths the index exists and exceeds its infrared limit. A biconvex lens in air, not thicker than its two radii together, of a glass with falling index is reported a positive focal length by ParaxialTrace that is shorter at the shorter wavelength. For any number of lenses in contact, cemented or not, the reported power is the sum of the thin lens powers; it changes between F and C by the sum of power at d over vd, and the focal lengths at F and C agree exactly if this sum is zero.", "quantifier": "all numbers and values of Sellmeier terms, all pairs of wavelengths with no pole between, all numbers of contact lenses, all curvatures, both axes and all rays used for the trace", "why_tests_cant": "tests look up single glasses at single wavelengths; that the index is monotone and that the Abbe numbers decide the colour correction of every stack quantifies over all glasses and lenses", "anchors": ["rayopt/material.py: CoefficientsMaterial.n_sellmeier", "rayopt/material.py: CoefficientsMaterial.n_sellmeier_squared", "rayopt/material.py: Material.dispersion", "rayopt/paraxial_trace.py: ParaxialTrace.focal_length"]}
{"id": "C95", "title": "Aspheric intersections: Newton's iteration finds the only intersection nearby and is wrong by the square of its tolerance", "statement": "On every piece of a ray inside the domain of a conic with polynomial terms on which the cosine to the normal keeps away from zero, the ray meets the surface at most once, and exactly once if its ends are on different sides. If the iteration of Interface.intercept (scipy's Newton with the exact normal, tolerance 1e-7, five steps) starts close enough to an intersection, which an explicit inequality between inclination, curvature and distance decides, it does not give NaN; and whatever it returns there is at most 2 L/m times the square of the tolerance away from that intersection, with m the least cosine and L the change of the cosine per length.", "quantifier": "all curvatures, conic constants, numbers and values of aspheric coefficients, all ray origins and directions, all bounds m and L", "why_tests_cant": "tests trace a few aspheres and compare to a few digits; that no other intersection is found and the error bound holds quantifies over all surfaces and rays", "anchors": ["rayopt/elements.py: Interface.intercept", "rayopt/elements.py: Spheroid.surface_sag", "rayopt/elements.py: Spheroid.surface_normal"]}
{"id": "C96", "title": "Third order of the thin lens: the listed coefficients add up to the textbook functions of power, shape and conjugates", "statement": "For a lens of two conic surfaces without thickness in vacuum, the seven columns of the coefficients listed by ParaxialTrace.aberrations add up to the textbook sums in terms of power, shape factor, conjugates factor, ray height and Lagrange invariant, for every stop position. Hence, among all bendings of a spherical lens of given glass and power between real object and image, spherical aberration is never zero and least for exactly one shape; it can be bent away exactly if the squared conjugates factor is at least n(n+2)/(n-1)^2; with the stop at the lens exactly one shape has no coma, astigmatism and Petzval curvature are power times half the invariant (divided by n) whatever the shape, never zero and never cancelling, distortion and lateral colour vanish, axial colour depends on power and dispersion only. Exactly one conic constant of the first surface removes spherical aberration, and with the stop at the lens it changes no other sum.", "quantifier": "all indices, curvatures, conic constants, object distances, rays, both axes", "why_tests_cant": "tests check single lenses against numbers; statements on the best of all shapes and on which aberrations no shape can change quantify over all lenses", "anchors": ["rayopt/elements.py: Spheroid.aberration", "rayopt/paraxial_trace.py: ParaxialTrace.aberrations", "rayopt/paraxial_trace.py: ParaxialTrace.propagate"]}
{"id": "C97", "title": "One library per process, one library file per user, each public name once", "statement": "Library.find_db returns the library file in the user's directory; if it exists no file is touched, else it is a copy of the file shipped with the program (the resource if it exists, else the one beside the module) and nothing else is new but directories above it. Whether it returns or raises, no existing file or directory is changed. It succeeds exactly if the file is there or the shipped one is a file and no file stands where a directory is needed; looking again, also from another installation, finds the same file unchanged. For every sequence of Library.one(...) and Library(...) calls all libraries returned by one are the same object, whatever their arguments; one does not warn; a library made otherwise warns exactly if the one library existed; a one that raised is tried again. public lists, for any decorations in any order, each name of a module once, in order of first decoration, behind what was listed before.", "quantifier": "all file trees, user directories, shipped files, call sequences, sequences of decorations", "why_tests_cant": "tests run with one home directory and one order of calls; files in the way, missing resources and repeated or failing calls are not set up", "anchors": ["rayopt/library.py: Library.one, Library.__init__, Library.find_db", "rayopt/utils.py: public"]}
{"id": "C98", "title": "Third order of mirror systems: stigmatic mirrors have the coma of their end slopes, exactly one pair of conics makes two mirrors aplanatic", "statement": "For any number of conic mirrors on one axis in vacuum the coefficients listed by ParaxialTrace.aberrations exist and add up to the textbook contributions of the mirrors, each with the stop at it moved to the common stop; the Petzval sum is the Lagrange invariant times the sum of the curvatures and both colour sums vanish. If every mirror is a conic with its two conjugate points as foci, spherical aberration vanishes and coma is a quarter of the difference of the squared slopes at the two ends, whatever mirrors and stop are in between. Two mirrors and a distant object: the classical telescope has the coma of the paraboloid of equal focal length, never zero; spherical aberration and coma both vanish for exactly one pair of conic constants (those of Ritchey and Chretien as functions of secondary magnification and height ratio), whose astigmatism is given; two confocal paraboloids are free of spherical aberration, coma and astigmatism. A spherical mirror has no coma exactly if the stop is in its centre, and then neither astigmatism nor distortion.", "quantifier": "all numbers of mirrors, distances, curvatures, conic constants, rays and stops, both axes", "why_tests_cant": "tests compare single systems with stored numbers; which conics correct a telescope and what no choice can remove are statements about all systems", "anchors": ["rayopt/elements.py: Spheroid.aberration, Spheroid.paraxial_matrix", "rayopt/paraxial_trace.py: ParaxialTrace.aberrations", "rayopt/paraxial_trace.py: ParaxialTrace.propagate"]}
{"id": "C99", "title": "Third order of systems of thin lenses and mirrors: Petzval sum, colour, the achromatic eyepiece, what contact lenses cannot correct", "statement": "For any number of thin lenses and conic mirrors in any order on one axis with air between, the coefficients listed by ParaxialTrace.aberrations exist and add up to the contributions of the components, each with the stop at it moved to the common stop. The Petzval sum is half the Lagrange invariant times the sum of power over index (minus one for a mirror), wherever the components and the stop are and whatever the shapes; axial and lateral colour are the sums of power over Abbe number weighted with the squared marginal height and with the product of both heights. Two lenses of one glass used as an eyepiece have no lateral colour exactly if they are half the sum of their focal lengths apart. Two lenses in contact are free of axial colour exactly if their powers over Abbe numbers cancel, then of lateral colour too for every stop, and they can be free of axial colour and Petzval curvature together only if index and Abbe number of the two glasses are proportional.", "quantifier": "all numbers, kinds and orders of components, distances, shapes, glasses, rays and stops, both axes", "why_tests_cant": "tests compare single systems with stored numbers; sums over any number of components and what no choice of shapes can correct are statements about all systems", "anchors": ["rayopt/elements.py: Spheroid.aberration, Spheroid.paraxial_matrix", "rayopt/paraxial_trace.py: ParaxialTrace.aberrations", "rayopt/paraxial_trace.py: ParaxialTrace.propagate"]}
{"id": "C100", "title": "Materials by name and by dictionary: what Material.make finds and what a reloaded material keeps", "statement": "A name, catalog/name or source/catalog/name gives the basic material or the library item it names, capitals or not, anything before the source being ignored; two numbers are always a model glass; a library material with unique names without slash is found again by its own text. The dictionary of a material makes it again in its own class with the same index at every wavelength; it is the identical material exactly if name and catalog are not empty strings and it has no thermal coefficients; every class either refuses the dictionary with TypeError or makes a material of the same index. Refuted: one number alone (the index) is not accepted although the code provides for it; a source with capitals is never found; a material with a slash in its name is not found by its text; thermal coefficients come back as a dictionary that cannot be used or written again.", "quantifier": "all strings, libraries, materials, classes, wavelengths", "why_tests_cant": "tests use single names; that no name is misread and that no class changes the index of a saved material quantifies over all of them", "anchors": ["rayopt/material.py: Material.make, Material.__str__, Material.dict", "rayopt/material.py: AbbeMaterial.from_string, AbbeMaterial.dict, ModelMaterial.dict, CoefficientsMaterial.dict", "rayopt/library.py: Library.get"]}
{"id": "C101", "title": "Waists of a Gaussian beam behind any system follow from the focal points that rays give", "statement": "For any number of upright elements (lenses, tilted or aspheric mirrors, planes) through which rays have power P, a front focal point and a back focal point, every fresh beam reaches the last element, and a waist at reduced distance x in front of the front focal point with reduced Rayleigh length z becomes a waist at x / (P^2 (x^2 + z^2)) behind the back focal point, its radius divided by |P| sqrt(x^2 + z^2): spot radius, curvature radius, waist position, Rayleigh range and waist radius reported there are those of that beam. A waist in the front focal point goes to the back focal point. No beam has its waist farther than 1 / (2 P^2 z) from the back focal point, and exactly the beams one Rayleigh length from the front focal point reach that distance. If rays image the point of the waist, the new waist lies strictly between that image and the back focal point, in the proportion x^2 / (x^2 + z^2). Without power a waist goes exactly to the ray image of its point, its radius multiplied like heights.", "quantifier": "all numbers and kinds of upright elements, indices, wavelengths, waist radii and positions, both axes", "why_tests_cant": "tests compare single beams with stored numbers; the relation of waists to ray foci holds for every system", "anchors": ["rayopt/elements.py: Element.propagate_gaussian, Element.paraxial_matrix, Spheroid.paraxial_matrix", "rayopt/gaussian_trace.py: GaussianTrace.make_qi, GaussianTrace.waist_position, GaussianTrace.waist_radius, GaussianTrace.rayleigh_range, GaussianTrace.spot_radius_at, GaussianTrace.curvature_radius_at", "rayopt/system.py: System.propagate_gaussian"]}
{"id": "C102", "title": "The mode of a resonator of two mirrors has the textbook spots, waist and wave fronts", "statement": "For any two mirrors facing each other, possibly tilted or aspheric, with stability factors g1 and g2 in a section and 0 < g1 g2 < 1, any beam with unmixed sections that the matrix of the round trip gives back and that is confined has, in that section, the spot w on the second mirror with w^4 = (l d / pi)^2 g1 / (g2 (1 - g1 g2)), the waist w0 with w0^4 = (l d / pi)^2 g1 g2 (1 - g1 g2) / (g1 + g2 - 2 g1 g2)^2 at the distance d g1 (1 - g2) / (g1 + g2 - 2 g1 g2), and a wave front with the radius of the mirror (flat on a flat mirror), as reported by the Gaussian trace. If both sections are stable, GaussianTrace.eigenmodes does not fail its assertion and lists exactly two modes, the first of which is that beam in both sections and the second its complex conjugate.", "quantifier": "all mirror curvatures, tilts, conic and aspheric terms, distances, wavelengths, scales, both axes", "why_tests_cant": "a test checks one resonator; the closed form holds for every stable one", "anchors": ["rayopt/gaussian_trace.py: GaussianTrace.eigenmodes, GaussianTrace.waist_position, GaussianTrace.waist_radius, GaussianTrace.spot_radius_at, GaussianTrace.curvature_radius_at, GaussianTrace.stable", "rayopt/system.py: System.paraxial_matrix", "rayopt/elements.py: Spheroid.paraxial_matrix, Element.propagate_gaussian"]}
{"id": "C103", "title": "A lens typed as a table or stored as a ZMX file has the focal length its numbers say", "statement": "A table of lines (type, radius of curvature, distance, diameter, glass) is imported as one upright spherical surface per line with exactly that curvature (0 for a plane), distance, half diameter and glass. Shifting the distance column by one line gives the same system as a table where every line carries the distance in front of its surface. The four lines of a lens in air always import and trace, in both conventions, and the reported focal length is that of the lens maker's equation computed from the numbers in the table; so does the same lens in a ZMX file, in spite of the extra element the importer puts in front. For tables of any length the reported focal length is the entrance height of a parallel ray over the sum of index step times curvature times height.", "quantifier": "all numbers of lines, all radii, non-negative distances, diameters, types, glasses given by an index or a known name with positive index, both axes, all wavelengths and traced rays, any lookup of glass names", "why_tests_cant": "Text, table, elements, matrices and reported figure have to agree for every prescription; tests import single files and look at a few attributes.", "anchors": ["rayopt/formats.py: system_from_text", "rayopt/formats.py: system_from_array", "rayopt/zemax.py: zmx_to_system", "rayopt/material.py: Material.make", "rayopt/elements.py: Spheroid.__init__", "rayopt/paraxial_trace.py: ParaxialTrace.focal_length"]}
{"id": "C104", "title": "Brightness of the point spread function: Marechal's and Rayleigh's criteria, and what is left of the contrast", "statement": "Measured in units of the central intensity of the perfect image with the same pupil, the intensity of any pixel is at least 1 minus the mean square phase error, at least (1 - half of it) squared while that is positive, and at most 1 minus the mean square phase error times (1 - D^2/12), with D the peak to valley phase; the error is taken against the plane wave focused on that pixel. Errors that stay within P <= 1/2 waves leave at least cos^2(pi P), a quarter wave at least one half. A pixel reaches the perfect intensity exactly if all errors agree up to whole waves. The contrast curve stays between cos(2 pi P) times and one times that of the perfect lens.", "quantifier": "all pupil grids and paddings, all wave front errors and vignetted parts, all pixels and spatial frequencies on both axes", "why_tests_cant": "The bounds hold for every wave front; tests evaluate the point spread function of one lens.", "anchors": ["rayopt/geometric_trace.py: GeometricTrace.psf", "rayopt/geometric_trace.py: GeometricTrace.opd", "rayopt/analysis.py: Analysis.opds"]}
{"id": "C105", "title": "The wave front error of a defocused bundle is exactly the defocus term, and the depth of focus follows", "statement": "For any ray whose line misses the reference image point by more than the radius of the reference sphere there is no result; else the reported error is the difference of the optical paths of the reference ray to the image point and of the ray to any point F of its line, corrected by n times (the projection of F minus image point on the ray, minus the sag of the sphere at the miss distance). If ray and reference ray meet at equal optical path at the distance D from the image point, the error is -n [D (1 - cos) + R (1 - sqrt(1 - (D sin / R)^2))] over the wavelength, the classical D (1 - cos) up to n D^2 sin^2 / R. If a whole bundle does, within the angle with cosine c0, and n D (1 - c0)(1 + 2 D / R) is at most a quarter wavelength, the point spread function keeps at least half of the perfect brightness (cos^2 of pi times the edge error in waves up to half a wave).", "quantifier": "all systems with tilted and displaced elements, finite and infinite objects, all rays, reference rays, radii of either sign, image and pupil surfaces, defocus and wavelengths; every resampling whose values lie between reported errors", "why_tests_cant": "The exact error is an identity in all ray directions and defocus values; a test evaluates a few rays of one lens and compares with rounded numbers.", "anchors": ["rayopt/geometric_trace.py: GeometricTrace.opd", "rayopt/geometric_trace.py: GeometricTrace.psf"]}
{"id": "C106", "title": "An OSLO lens file has the focal length its lines say", "statement": "The surfaces of a LEN file or an OLC text become Spheroids in order, each at the thickness of the surface before it (the first at 0), with curvature 1/RD (plane without RD; RD 0 in OLC), conic constant CC, the glass that is named (air for AIR; in OLC also for missing and unknown glasses, but no glass at all for an object without GLA), whatever other lines stand in between; any surface with its offset, conic constant, aspheric coefficients, glass and radius becomes such an element exactly if it is at a finite distance and no number is missing. What is imported from a four surface file in air can be traced and reports the focal length of the lensmaker's equation with the numbers of the lines; for any number of surfaces index step times curvature times height of a parallel ray adds up to entrance height over focal length.", "quantifier": "all texts whose lines that concern surfaces are RD, TH, GLA or AIR, CC, NXT, END in this order per surface; all numbers (LEN thickness up to 100), glasses and wavelengths; arbitrary other lines", "why_tests_cant": "The chain from text to focal length is shown for all files; a test imports one file and rounds.", "anchors": ["rayopt/oslo.py: len_to_system", "rayopt/oslo.py: olc_to_system", "rayopt/paraxial_trace.py: ParaxialTrace.focal_length"]}
{"id": "C107", "title": "The diffraction pattern and the contrast of a rectangular pupil are the textbook ones", "statement": "For a pupil lit in a rectangle of any size and position with a constant error, every pixel of the point spread function is the product of two grating patterns sin^2(pi a p/m)/sin^2(pi p/m), divided by the number of lit pixels and the size of the array. A pixel is dark exactly if along one axis the phase over the rectangle is a whole number of waves and the phase per pixel is not. In image coordinates no dark line is nearer than wavelength times distance by width, and a pixel at that distance is dark. The contrast falls linearly with the spatial frequency and is gone exactly from the frequency width by (wavelength times distance) on.", "quantifier": "all grid sizes, paddings, rectangles, pixels, heights, radii, wavelengths and scales; for the contrast padding at least two", "why_tests_cant": "Closed form for all sizes; a test transforms a few arrays and compares rounded numbers.", "anchors": ["rayopt/geometric_trace.py: GeometricTrace.psf", "rayopt/analysis.py: Analysis.opds"]}
{"id": "C108", "title": "The reports of whole traces say what rays and beams do", "statement": "Each of the fourteen labels of the report of a paraxial trace stands there once, followed by the two tables. In air the numbers beside the labels for focal length, focal distance and principal distance say where every other ray that enters or leaves parallel to the axis crosses it, the nodal points are the principal points; beside the pupil labels stand distance and radius through which every other ray passes in proportion to its height in the stop; the transverse magnification times the object height is the image height shown; the airy radii are 0.61 wavelengths over the apertures shown, in the unit of the system. The report of a Gaussian beam has a line per surface with the path, both spot radii w sqrt(1+(z/zR)^2), the way to both waists and their radii. The Rayleigh range of the paraxial trace is that of a beam with the airy radius as waist in vacuum; in a medium of index n the beam has n times as much. The report of a polynomial trace gives order, wavelength in nanometres, coefficients and names.", "quantifier": "all systems of surfaces that can be traced, all rays, scales and wavelengths; beams whose axes are along x and y", "why_tests_cant": "A test compares one printed text with a stored one and does not know which ray a number is about.", "anchors": ["rayopt/paraxial_trace.py: ParaxialTrace.print_params", "rayopt/paraxial_trace.py: ParaxialTrace.text", "rayopt/gaussian_trace.py: GaussianTrace.print_trace", "rayopt/poly_trace.py: PolyTrace.__str__", "rayopt/paraxial_trace.py: ParaxialTrace.rayleigh_range"]}
{"id": "C109", "title": "The unit of length does not change the optics", "statement": "Rescaling a system by k and its unit of length by 1/k leaves the wave front error in waves of every ray unchanged and scales its pupil coordinates by k. The pixels of the diffraction image, focal lengths, focal and pupil distances, pupil heights, the spot radius and the Rayleigh range scale by k. Magnifications, numerical apertures, f-numbers and the third order and chromatic coefficients of every surface do not change; the transverse aberrations scale by k.", "quantifier": "for all systems of conic surfaces (aspheric ones with a scale free root finder), all rays, k > 0", "why_tests_cant": "Exact equality of two whole computations, trace to result, over all systems and factors; tests run in one unit.", "anchors": ["rayopt/system.py: System.rescale", "rayopt/geometric_trace.py: GeometricTrace.opd", "rayopt/geometric_trace.py: GeometricTrace.psf", "rayopt/paraxial_trace.py: ParaxialTrace.aberrations", "rayopt/paraxial_trace.py: ParaxialTrace.transverse3"]}
{"id": "C110", "title": "The wave front error of a coaxial system has the symmetry of its light", "statement": "In a system of surfaces of revolution on one axis, rays and reference ray turned about the axis or mirrored in a plane with it have the same wave front error in waves, and their pupil coordinates are turned or mirrored. For an object on the axis, near or at infinity, the error depends only on the angle to the axis, or the distance from it, at which a ray is launched. For an object off the axis it is even across the meridional plane.", "quantifier": "for all coaxial systems (mirrors and aspheric surfaces included), rays, turns, mirror planes, any root finder", "why_tests_cant": "Universal over rays and the whole group of symmetries; a test compares a few rays of one lens.", "anchors": ["rayopt/geometric_trace.py: GeometricTrace.opd", "rayopt/geometric_trace.py: GeometricTrace.propagate", "rayopt/elements.py: Spheroid.intercept"]}
{"id": "C111", "title": "The diffraction image has the symmetry of the wave front", "statement": "Mirroring the wave front mirrors the point spread function, exchanging the pupil axes exchanges the image axes, and the opposite error gives the image turned by half a turn; the mirrored pixel has the opposite coordinate except on the fold frequency. Hence a wave front even about a plane has an even image, and if the error is the same at opposite pupil points (defocus, spherical aberration, astigmatism) the error and its opposite give the same image: the images on both sides of the focus agree.", "quantifier": "for all grids, padding, partly vignetted wave fronts and pixels", "why_tests_cant": "Identity between transforms of arbitrary arrays of any size; tests compare one array.", "anchors": ["rayopt/geometric_trace.py: GeometricTrace.psf"]}
{"id": "C112", "title": "Systems folded in a plane are symmetric about it", "statement": "If a rotation or reflection keeps the vertex steps and the surface normals of all elements, moved rays meet the moved points in the moved directions after the same optical path, and have the same wave front error. In particular, for a system folded in a plane by tilted or decentred mirrors and lenses: rays launched in the plane stay in it, mirrored rays meet the mirrored points, and the wave front error against a reference ray in the plane is even across it. Every element placed in the yz plane and tilted about x only (by distance and direction or by offset, within the comparison tolerances too) is folded in this way.", "quantifier": "for all systems with such a symmetry (any placements, mirrors, aspheric surfaces), all rays, indices, planes, any root finder", "why_tests_cant": "Universal over folded layouts, tilts and rays; a test traces a few rays of one layout.", "anchors": ["rayopt/geometric_trace.py: GeometricTrace.propagate", "rayopt/geometric_trace.py: GeometricTrace.opd", "rayopt/elements.py: TransformMixin.update", "rayopt/elements.py: Spheroid.intercept"]}
{"id": "C113", "title": "A lens symmetric about its stop images without distortion and coma at unit magnification", "statement": "Put System.reverse() of a centred refracting system in front of it, with the first element as the common stop. In the exact trace of this lens every ray through the centre of the stop leaves parallel to itself and arrives at the point opposite to where it was launched, whatever the angle: the magnification is -1 without distortion. Of two rays that cross the stop at opposite points in the same direction, each arrives opposite to where the other one was launched, in its direction and after the same optical path, so they miss the opposite points by opposite vectors: there is no coma.", "quantifier": "for all centred systems of refracting spheres, conics and planes of any length, all rays that cross them, with or without clipping", "why_tests_cant": "Exact identity at all field angles for lenses of any length; a test traces a few rays of one lens and sees rounding only.", "anchors": ["rayopt/system.py: System.reverse", "rayopt/system.py: System.propagate", "rayopt/geometric_trace.py: GeometricTrace.propagate", "rayopt/elements.py: Spheroid.reverse"]}
{"id": "C114", "title": "Two lens groups with a common focal point make a telescope", "statement": "Two lens groups in air, traced alone, report their focal lengths fa, fb and principal planes. Put one behind the other so that the principal planes facing each other are fa + fb apart, every ray leaves with its slope multiplied by -fa/fb, whatever its height, and the plane at z behind the front focal point of the first group is imaged onto the plane at (fb/fa)^2 z behind the rear focal point of the second at the magnification -fb/fa for all z (so the exit pupil of an objective lies fb^2/fa behind the rear focal point). The code reports no finite focal length for the whole exactly at this separation.", "quantifier": "for all lens groups with any number of untilted (also aspheric) surfaces and any indices, all rays and object planes, both sections", "why_tests_cant": "Universal over the groups, and an equivalence that holds at exactly one separation; a test looks at one pair of lenses.", "anchors": ["rayopt/paraxial_trace.py: ParaxialTrace.focal_length", "rayopt/paraxial_trace.py: ParaxialTrace.principal_distance", "rayopt/paraxial_trace.py: ParaxialTrace.propagate", "rayopt/elements.py: Spheroid.paraxial_matrix"]}
{"id": "C115", "title": "A lens turned round has the same focal lengths and its focal points and principal planes swapped", "statement": "After System.reverse a lens in air (object plane, any number of refracting surfaces, image plane) reports the same two focal lengths as before; the distance of its front focal point from its first surface is minus the distance of the former back focal point from the former last surface and conversely, and the same holds for the principal planes.", "quantifier": "for all untilted lenses with any number of (also aspheric) refracting surfaces, all indices and distances, all pairs of rays traced through either, both sections", "why_tests_cant": "Universal over lenses, and it ties the list surgery of reverse (distances and materials moved by one place) to the indices that the reports pick; a test reverses one lens and does not look at the reports.", "anchors": ["rayopt/system.py: System.reverse", "rayopt/paraxial_trace.py: ParaxialTrace.focal_length", "rayopt/paraxial_trace.py: ParaxialTrace.focal_distance", "rayopt/paraxial_trace.py: ParaxialTrace.principal_distance", "rayopt/elements.py: Spheroid.reverse"]}
{"id": "C116", "title": "Distances along the axis are magnified by the product of the lateral magnifications", "statement": "If a lens images the plane at z1 onto z1' with the lateral magnification m1 and the plane at z2 onto z2' with m2 (for all paraxial rays that the code traces), then (z2' - z1')/n' = m1 m2 (z2 - z1)/n. Image plane and magnification are determined by the object plane, the magnification is never zero, and a ray from the axial object point leaves with its index times slope divided by the magnification. If the lens has focal lengths, the values that the code reports are the ones measured by the two pairs: z2 - z1 = f1 (1/m2 - 1/m1) with the second and z2' - z1' = f0 (m2 - m1) with the first (signed) reported value.", "quantifier": "for all lenses of any number of untilted (also aspheric) surfaces between any media, focal or not, all pairs of planes, all rays, both sections", "why_tests_cant": "Universal over systems and pairs of planes; tests compare one image distance with a stored number.", "anchors": ["rayopt/paraxial_trace.py: ParaxialTrace.propagate", "rayopt/system.py: System.propagate_paraxial", "rayopt/elements.py: Spheroid.paraxial_matrix", "rayopt/system.py: System.refractive_index", "rayopt/paraxial_trace.py: ParaxialTrace.focal_length"]}
{"id": "C117", "title": "Clipping removes exactly the rays that miss an aperture, and smaller apertures pass fewer rays", "statement": "With clipping a ray gets through to element i exactly if it does so without clipping and meets every element from the first to i inside its aperture, and its path is then the one without clipping. If some apertures are made smaller and nothing else is changed, every ray that passes still passed before, on the same path.", "quantifier": "for all systems (tilted, aspheric, mirrors), apertures, rays, indices, any root finder", "why_tests_cant": "Universal over systems and rays, in both directions; tests clip one bundle and count the rays left.", "anchors": ["rayopt/elements.py: Element.clip", "rayopt/elements.py: Element.propagate", "rayopt/elements.py: Interface.propagate", "rayopt/system.py: System.propagate", "rayopt/geometric_trace.py: GeometricTrace.propagate"]}
{"id": "C118", "title": "Lens groups in sequence image in steps and their magnifications multiply", "statement": "If one lens group images a plane onto a second plane with magnification m1, and another group, traced alone, images onto a third plane, with magnification m2, the plane that lies where the second plane ends up when the groups stand one behind the other, then the system of both groups as the code traces it images the first plane onto the third with magnification m1 m2.", "quantifier": "for all groups with any number of untilted (also aspheric) surfaces, any media before, between and behind them (the distance of the groups may put the intermediate image anywhere, also inside the second group), all rays, both sections", "why_tests_cant": "Universal over groups and distances, and it ties the tracing of the joined list of elements (index carried on, distances before each surface) to that of its parts.", "anchors": ["rayopt/paraxial_trace.py: ParaxialTrace.propagate", "rayopt/system.py: System.propagate_paraxial", "rayopt/system.py: System.refractive_index", "rayopt/elements.py: Spheroid.paraxial_matrix"]}
