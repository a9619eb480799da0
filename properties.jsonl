{"id": "C01", "title": "Changing the representation of a 3-D position never moves the point", "statement": "For every valid 3-D position v (Cartesian, cylindrical, spherical, math-spherical, lon-lat-spherical; radial part given as Distance, Parallax or DistanceModulus) and every other such class T, v.represent_as(T), when it returns finite coordinates, is an instance of T that denotes the same point of Euclidean space as v.", "quantifier": "all real coordinates of all valid 3-D positions, all 25 source/target class pairs", "why_tests_cant": "The coordinates range over a continuum with branch cuts (atan2, acos, azimuth wrapping); a sample never covers the measure-zero seams nor all class pairs.", "anchors": ["src/coordinax/_src/vectors/d3/transform.py:represent_as"]}
{"id": "C02", "title": "2-D and 1-D representation changes keep the point", "statement": "represent_as between CartesianPos2D and PolarPos, and between CartesianPos1D and RadialPos, returns the same point; CartesianPos1D->RadialPos succeeds exactly when x >= 0.", "quantifier": "all real coordinates of valid 1-D and 2-D positions", "why_tests_cant": "continuum of inputs and the sign boundary", "anchors": ["src/coordinax/_src/vectors/d2/transform.py:represent_as", "src/coordinax/_src/vectors/d1/transform.py:represent_as"]}
{"id": "C03", "title": "Embedding and projection between dimensions", "statement": "Embedding a lower-dimensional position in a higher-dimensional Cartesian or cylindrical class with given missing coordinates denotes the point with exactly those coordinates; projecting a 3-D position to CartesianPos2D/PolarPos/CartesianPos1D denotes its orthogonal projection on the xy-plane / x axis, and embedding followed by projection is the identity.", "quantifier": "all positions whose radial part is a Distance, all extra coordinates", "why_tests_cant": "continuum of inputs, many class pairs", "anchors": ["src/coordinax/_src/vectors/transform/d1.py", "src/coordinax/_src/vectors/transform/d2.py", "src/coordinax/_src/vectors/transform/d3.py"]}
{"id": "C04", "title": "Round trips between position representations", "statement": "For every valid 3-D position v and classes S,T: converting S->T->S gives back a position denoting the same point; off the polar axis and with azimuth in range it gives back exactly the same coordinates.", "quantifier": "all valid positions off the coordinate singularity", "why_tests_cant": "branch cuts and singular sets are never hit by samples", "anchors": ["src/coordinax/_src/vectors/d3/transform.py"]}
{"id": "C05", "title": "Every constructed position satisfies its class invariant", "statement": "Any position object obtained (eagerly) from a constructor, from_, or represent_as has r>=0 (resp. rho>=0), polar angle in [0,pi] (latitude in [-pi/2,pi/2]), prolate mu>=Delta^2>=|nu|, Delta>0, unless that component is NaN; and the constructor raises whenever a finite component is outside the range.", "quantifier": "all constructor arguments, all conversions", "why_tests_cant": "the guarantee is about every input, including boundary values and values produced by other methods", "anchors": ["src/coordinax/_src/vectors/checks.py", "src/coordinax/_src/vectors/d3/spherical.py:SphericalPos.__check_init__", "src/coordinax/_src/vectors/d3/lonlatspherical.py", "src/coordinax/_src/vectors/d3/cylindrical.py", "src/coordinax/_src/vectors/d3/spheroidal.py", "src/coordinax/_src/vectors/d2/polar.py", "src/coordinax/_src/vectors/d1/radial.py"]}
{"id": "C06", "title": "Azimuths given as quantities are wrapped into [0, 360) degrees", "statement": "When an azimuth (phi, lon, math theta) is passed as a plain Quantity, the stored azimuth is in [0,2pi) and differs from the input by a multiple of 2pi; when it is passed as an Angle it is stored unchanged.", "quantifier": "all real azimuths", "why_tests_cant": "continuum including negative and huge angles and exact multiples of 360", "anchors": ["src/coordinax/_src/vectors/converters.py:converter_azimuth_to_range", "src/coordinax/_src/vectors/d3/spherical.py:SphericalPos.phi"]}
{"id": "C07", "title": "SphericalPos.from_ and MathSphericalPos.from_ accept any real r, theta, phi", "statement": "For all real r, theta, phi, SphericalPos.from_(r,theta,phi) succeeds and denotes the point (r sin theta cos phi, r sin theta sin phi, r cos theta) with r>=0 and theta in [0,pi]; likewise MathSphericalPos.from_.", "quantifier": "all real r, theta, phi (length-valued r)", "why_tests_cant": "needs every combination of sign of r and winding of theta", "anchors": ["src/coordinax/_src/vectors/d3/spherical.py:from_", "src/coordinax/_src/vectors/d3/mathspherical.py:from_"]}
{"id": "C08", "title": "LonLatSphericalPos.from_ normalises latitude; exact domain of success", "statement": "LonLatSphericalPos.from_(lon,lat,distance) returns a vector denoting the point with the given (signed) distance, longitude and latitude whenever it returns, and it returns exactly when the sign-adjusted latitude lies in [-450,270] degrees.", "quantifier": "all real lon, lat, distance", "why_tests_cant": "the two-step folding is correct only on a finite window; tests sample inside it", "anchors": ["src/coordinax/_src/vectors/d3/lonlatspherical.py:from_"]}
{"id": "C09", "title": "represent_as resolves to one implementation, terminates and returns the requested class", "statement": "For each ordered pair of position classes represent_as either returns an instance of the target class (or raises a value error) after boundedly many re-dispatches, or raises NotFoundLookupError; no pair is ambiguous; the only exception is TwoSpherePos, for which represent_as to any 2-D class never terminates.", "quantifier": "all ordered pairs of the 11 position classes, all coordinate values", "why_tests_cant": "depends on the whole overload table and recursion between overloads", "anchors": ["src/coordinax/_src/vectors/d1/transform.py", "src/coordinax/_src/vectors/d2/transform.py", "src/coordinax/_src/vectors/d3/transform.py", "src/coordinax/_src/vectors/transform/d1.py", "src/coordinax/_src/vectors/transform/d2.py", "src/coordinax/_src/vectors/transform/d3.py"]}
{"id": "C10", "title": "Dimension-reducing conversions always warn, others never", "statement": "A successful v.represent_as(T) issues IrreversibleDimensionChange if and only if T has fewer spatial dimensions than v.", "quantifier": "all class pairs and all values", "why_tests_cant": "must hold on every path through the overload table", "anchors": ["src/coordinax/_src/vectors/transform/d2.py", "src/coordinax/_src/vectors/transform/d3.py", "src/coordinax/_src/vectors/exceptions.py"]}
{"id": "C11", "title": "norm is the distance to the origin and is representation independent", "statement": "v.norm() (length-valued radial part) equals the Euclidean length of the point v denotes, hence is unchanged by represent_as.", "quantifier": "all valid 3-D positions", "why_tests_cant": "continuum", "anchors": ["src/coordinax/_src/vectors/base/base_pos.py:AbstractPos.norm", "src/coordinax/_src/vectors/d3/cylindrical.py:norm", "src/coordinax/_src/vectors/d3/mathspherical.py:norm", "src/coordinax/_src/vectors/d3/lonlatspherical.py:norm"]}
{"id": "C12", "title": "Adding and subtracting positions is vector addition/subtraction", "statement": "v+w and v-w return an object of the class of v denoting the vector sum/difference of the points, for any mix of same-dimensional classes (whenever the result is finite), and - is the inverse of +.", "quantifier": "all valid positions of all 3-D (2-D) classes", "why_tests_cant": "continuum and class pairs", "anchors": ["src/coordinax/_src/vectors/base/base_pos.py:_add_qq,_sub_qq", "src/coordinax/_src/vectors/d3/cartesian.py", "src/coordinax/_src/vectors/d2/cartesian.py", "src/coordinax/_src/vectors/d1/cartesian.py"]}
{"id": "C13", "title": "Negation and scalar multiplication act on the point", "statement": "-v denotes the opposite point; k*v denotes k times the point and v*k equals k*v; class is kept. For PolarPos, MathSphericalPos and RadialPos negative scalars raise.", "quantifier": "all valid positions, all real k", "why_tests_cant": "continuum, sign boundary", "anchors": ["src/coordinax/_src/vectors/base/base_pos.py:_mul_v_pos,_neg_pos", "src/coordinax/_src/vectors/d2/polar.py:_mul_p_vpolar", "src/coordinax/_src/vectors/d3/mathspherical.py:_mul_p_vmsph"]}
{"id": "C14", "title": "Division of a position by a scalar", "statement": "v/k divides every component (including angles) by k; for Cartesian positions this is (1/k)*v, for curvilinear positions it is not.", "quantifier": "all positions and k != 0", "why_tests_cant": "continuum", "anchors": ["src/coordinax/_src/vectors/base/base_pos.py:_div_pos_v"]}
{"id": "C15", "title": "Equality of positions compares points across representations", "statement": "v == w converts w to the class of v and compares components: it is reflexive, and for same-dimension valid representations in canonical range off the polar axis it holds iff they denote the same point; across dimensions it is not symmetric.", "quantifier": "all pairs of positions", "why_tests_cant": "continuum; relation over pairs", "anchors": ["src/coordinax/_src/vectors/base/base_pos.py:AbstractPos.__eq__", "src/coordinax/_src/vectors/base/base.py:AbstractVector.__eq__"]}
{"id": "C16", "title": "Prolate spheroidal -> cylindrical denotes confocal coordinates", "statement": "For mu>=Delta^2>=|nu|, the cylindrical position obtained from a ProlateSpheroidalPos satisfies R^2/(tau-Delta^2)+z^2/tau=1 for tau in {mu,|nu|} (in polynomial form), and z has the sign of nu.", "quantifier": "all valid mu, nu, Delta, phi", "why_tests_cant": "continuum incl. degenerate foci and axis", "anchors": ["src/coordinax/_src/vectors/d3/transform.py:601-629", "src/coordinax/_src/vectors/d3/spheroidal.py"]}
{"id": "C17", "title": "cylindrical -> prolate spheroidal is correct, in range and inverts the former", "statement": "For every rho>=0, z, Delta>0 except the two foci, represent_as(CylindricalPos, ProlateSpheroidalPos, Delta) succeeds, satisfies the class range, satisfies the confocal equations and converts back to the same rho, phi, z; at a focus nu is NaN.", "quantifier": "all rho, z, Delta", "why_tests_cant": "numerically-stabilised branches must agree on every boundary", "anchors": ["src/coordinax/_src/vectors/d3/transform.py:632-705"]}
{"id": "C18", "title": "Conversions to prolate coordinates require Delta", "statement": "represent_as(v, ProlateSpheroidalPos) without Delta raises for every 3-D v that is not already prolate; without Delta a prolate vector is returned unchanged; with Delta=D the result has focal length D and denotes the same point.", "quantifier": "all 3-D positions", "why_tests_cant": "all class pairs and values", "anchors": ["src/coordinax/_src/vectors/d3/transform.py:734-821"]}
{"id": "C19", "title": "Velocity transformation is the push-forward", "statement": "If a velocity v at position q is represented in T, the result, interpreted with T's own coordinate formulas at the transformed position, is the same Cartesian velocity: for every pair of 3-D (and 2-D, 1-D) classes, off singularities (prolate spheroidal coordinates as a target with a given Delta; as a source the conversion should work too but always raises).", "quantifier": "all positions off the singular set, all velocities, all class pairs", "why_tests_cant": "a derivative identity over a continuum", "anchors": ["src/coordinax/_src/vectors/transform/velocities.py:represent_as"]}
{"id": "C20", "title": "Velocity round trips and speed invariance", "statement": "Converting a velocity S->T->S (at the same point) gives back the same velocity components, conversion to prolate coordinates loses nothing, and v.norm(q) in one and three dimensions is the Euclidean norm of the Cartesian velocity, independent of the representation. Every planar v.norm(...) raises TypeError (CartesianVel2D defines no norm of its own, so the inherited one is called without its position).", "quantifier": "all positions off the singular set, all velocities", "why_tests_cant": "continuum", "anchors": ["src/coordinax/_src/vectors/transform/velocities.py", "src/coordinax/_src/vectors/base/base_vel.py:norm"]}
{"id": "C21", "title": "LonCosLat velocities differ from LonLat velocities exactly by cos(lat)", "statement": "represent_as(LonLatSphericalVel, LonCosLatSphericalVel, q) multiplies d_lon by cos lat; converting back returns the original off the poles and is NaN/inf at the poles.", "quantifier": "all velocities and positions", "why_tests_cant": "continuum; pole", "anchors": ["src/coordinax/_src/vectors/d3/transform.py:828-931"]}
{"id": "C22", "title": "Acceleration transformation omits the curvature term", "statement": "represent_as for accelerations multiplies by the Jacobian only; it equals the true second derivative along a curve iff the second-derivative term vanishes; it is therefore independent of the supplied velocity and wrong e.g. for uniform circular motion.", "quantifier": "all positions, velocities, accelerations", "why_tests_cant": "identity over a continuum", "anchors": ["src/coordinax/_src/vectors/transform/accelerations.py:represent_as"]}
{"id": "C23", "title": "Velocity times time and acceleration times time", "statement": "vel*t builds the position with components d_k*t (and raises iff that violates the position class range); acc*t builds the velocity, acc*t^2 the position; t*acc = acc*t.", "quantifier": "all velocities/accelerations, all times", "why_tests_cant": "continuum, sign boundary", "anchors": ["src/coordinax/_src/vectors/base/base_vel.py:_mul_vel_q", "src/coordinax/_src/vectors/base/base_acc.py"]}
{"id": "C24", "title": "integral_cls / differential_cls chains are mutually inverse", "statement": "For every position class P, P.differential_cls.integral_cls is P; every velocity class V except LonCosLatSphericalVel satisfies V.integral_cls.differential_cls is V and V.differential_cls.integral_cls is V.", "quantifier": "all vector classes", "why_tests_cant": "whole-program relation between many classes", "anchors": ["src/coordinax/_src/vectors/d1", "src/coordinax/_src/vectors/d2", "src/coordinax/_src/vectors/d3", "src/coordinax/_src/vectors/dn"]}
{"id": "C25", "title": "Every operator followed by its inverse is the identity", "statement": "For Identity, GalileanSpatialTranslation, GalileanTranslation, GalileanRotation (orthogonal matrix), GalileanBoost, VelocityBoost, GalileanOperator and any Pipe of them: op.inverse(op(x)) denotes x and op(op.inverse(x)) denotes x, for every call signature supported.", "quantifier": "all operators, all pipes of any length, all positions/times/velocities", "why_tests_cant": "induction over arbitrarily long pipes; continuum", "anchors": ["src/coordinax/_src/operators/galilean/*.py:inverse", "src/coordinax/_src/operators/composite.py:inverse", "src/coordinax/_src/operators/identity.py", "src/coordinax/_src/operators/boost.py"]}
{"id": "C26", "title": "Pipe applies operators left to right; | is associative and flattens", "statement": "Pipe((a,b,...))(x) = ...b(a(x)); (a|b)|c and a|(b|c), when they return, act identically; a nested pipe flattens.", "quantifier": "all operators, all pipe lengths", "why_tests_cant": "induction over lists", "anchors": ["src/coordinax/_src/operators/pipe.py", "src/coordinax/_src/operators/base.py:__or__"]}
{"id": "C27", "title": "Pipe.inverse reverses and inverts; inverse is an involution; length preserved", "statement": "Pipe.inverse has the inverses of the components in reverse order; inverse of inverse acts as the original; is_inertial of a composite is the conjunction of its parts; indexing/iteration agree with the operator tuple.", "quantifier": "all pipes", "why_tests_cant": "induction over lists", "anchors": ["src/coordinax/_src/operators/composite.py"]}
{"id": "C28", "title": "Simplification preserves meaning", "statement": "simplify_op(op) acts as op on every input: for Pipe (merging translations, boosts, dropping identities), for single operators outside the tolerance window; counter-example for two rotations and for sub-tolerance offsets.", "quantifier": "all operators, pipes, inputs", "why_tests_cant": "induction over pipes; continuum", "anchors": ["src/coordinax/_src/operators/register_simplify.py", "src/coordinax/_src/operators/galilean/*.py:simplify_op"]}
{"id": "C29", "title": "Galilean operators act as the Galilean group", "statement": "Spatial translation adds its vector at every time and leaves time and Cartesian velocity unchanged; boost adds v*t; rotation is an isometry that fixes the origin and preserves time; distances between simultaneous points are preserved by every Galilean operator; GalileanOperator is the sequential composition rotation, translation, boost.", "quantifier": "all operators and events", "why_tests_cant": "continuum, group laws", "anchors": ["src/coordinax/_src/operators/galilean"]}
{"id": "C30", "title": "FourVector arithmetic, invariant norm and array conversion", "statement": "FourVector +,-,neg act on (ct,q) componentwise; norm2 = (ct)^2-|q|^2 is independent of the representation of q and invariant under neg and spatial rotations; conversion to a 4-array and from_ back is the identity.", "quantifier": "all four-vectors", "why_tests_cant": "continuum", "anchors": ["src/coordinax/_src/vectors/d4/spacetime.py", "src/coordinax/_src/vectors/d4/compat.py"]}
{"id": "C31", "title": "ICRS <-> Galactocentric transforms are mutually inverse", "statement": "frame_transform_op(ICRS,GCF) followed by frame_transform_op(GCF,ICRS) is the identity on positions and on (position, velocity), for every frame parameter choice with |z_sun|<=distance; likewise the other way round.", "quantifier": "all Galactocentric frame parameters, all positions and velocities", "why_tests_cant": "continuum of frames", "anchors": ["src/coordinax/_coordinax_space_frames/frame_transforms.py"]}
{"id": "C32", "title": "Galactocentric frame geometry", "statement": "The transform maps the Galactic-centre direction at the configured distance to the origin-plane position the frame documents, the Sun (ICRS origin) to distance galcen.distance from the centre with height z_sun, is an isometry, and shifts velocities by galcen_v_sun after rotation.", "quantifier": "all frame parameters", "why_tests_cant": "continuum", "anchors": ["src/coordinax/_coordinax_space_frames/frame_transforms.py", "src/coordinax/_coordinax_space_frames/galactocentric.py"]}
{"id": "C33", "title": "Frame lookup: identity and errors", "statement": "frame_transform_op(f,f) for ICRS is the identity; between two Galactocentric frames it is the composition through ICRS and is the identity for equal frames; any pair involving NoFrame raises. A bare position (without velocity) is refused by these transforms, also as plain array through the pipe of two Galactocentric frames (finding).", "quantifier": "all frames", "why_tests_cant": "all parameter values", "anchors": ["src/coordinax/_src/frames/xfm.py", "src/coordinax/_coordinax_space_frames/frame_transforms.py"]}
{"id": "C34", "title": "Distance, parallax and distance modulus convert consistently", "statement": "Distance->Parallax->Distance, Parallax->Distance->Parallax, Distance->DistanceModulus->Distance etc. are identities on positive distances / parallaxes in (0,pi/2) / all moduli, and the conversions are monotone. plum.convert between the three classes refuses instead (finding); the constructors' from_ give the same conversions where they exist.", "quantifier": "all positive reals", "why_tests_cant": "continuum", "anchors": ["src/coordinax/_src/distances/core.py"]}
{"id": "C35", "title": "Negative parallaxes and moduli", "statement": "A Parallax with check_negative rejects exactly negative values; with the check off, conversion to distance and back does not return the original negative parallax.", "quantifier": "all reals", "why_tests_cant": "continuum", "anchors": ["src/coordinax/_src/distances/core.py:Parallax"]}
{"id": "C36", "title": "Unit conversion preserves the physical vector", "statement": "uconvert of a vector to a unit system / mapping of dimensions to units changes each component's unit to the requested one and preserves every component's physical value; it raises if a needed dimension is missing; it is idempotent and composes.", "quantifier": "all vectors, all unit choices", "why_tests_cant": "every unit combination", "anchors": ["src/coordinax/_src/vectors/base/compat.py:uconvert"]}
{"id": "C37", "title": "Shape laws of batched vectors", "statement": "v.shape is the broadcast of component shapes; v[i], v.reshape, v.flatten, v.T, len, size act on the full-shaped vector like NumPy: shape(reshape s) = s, size is preserved, and reshape of unbroadcast components is broadcast first. T, mT, flatten and ravel do so when all components have the same shape; for components of different shapes they act on the unbroadcast components and give a different or ill-shaped vector, and iterating a vector never stops because an index past the end is clamped (findings).", "quantifier": "all shapes and component shapes", "why_tests_cant": "arbitrary rank and sizes", "anchors": ["src/coordinax/_src/vectors/base/base.py:AbstractVector", "src/coordinax/_src/vectors/utils.py:full_shaped"]}
{"id": "C38", "title": "Immutability", "statement": "Item assignment on a vector always raises and changes nothing.", "quantifier": "all vectors, indices, values", "why_tests_cant": "no input may succeed", "anchors": ["src/coordinax/_src/vectors/base/base.py:__setitem__"]}
{"id": "C39", "title": "Space is a dimension-keyed mapping of vectors", "statement": "Space(...) stores one vector per differential order; keys, lookup, iteration, indexing by slice, negation and represent_as act field-wise and keep the key set; later duplicates overwrite. Two string keys naming the same dimension are accepted silently, a key given by an alias is found only under the canonical name, indexing a space acts on the unbroadcast entries, and negating a phase-space point held in polar coordinates leaves its velocity vector unchanged (findings).", "quantifier": "all spaces", "why_tests_cant": "arbitrary finite maps", "anchors": ["src/coordinax/_src/vectors/space/core.py:Space"]}
{"id": "C40", "title": "Poincare polar round trip", "statement": "Space(pos+vel) -> PoincarePolarVector -> Space preserves rho, z, d_rho, d_z and |d_phi|: for d_phi>0 it returns the same point and velocity (in cylindrical form), for d_phi<0 the sign of d_phi is lost, for d_phi=0 the azimuth is lost. PoincarePolarVector -> Space -> PoincarePolarVector is the identity off the axis; on the axis d_phi is NaN.", "quantifier": "all phase-space points", "why_tests_cant": "continuum", "anchors": ["src/coordinax/_src/vectors/transform/dn.py", "src/coordinax/_src/vectors/transform/space.py"]}
{"id": "C41", "title": "Cartesian vectors convert to arrays and back without loss", "statement": "For Cartesian positions/velocities/accelerations of dimension 1,2,3, from_(array) builds the vector whose components are the array's trailing entries in order x,y,z, convert to Quantity returns the components in that order, and the two are mutually inverse (on arrays of the right trailing length). Arrays of the wrong trailing length raise only for CartesianPos2D, CartesianVel2D and CartesianAcc3D; the other classes silently accept them (finding), and a 1-D from_ of a batch keeps only the first entry (finding).", "quantifier": "all arrays", "why_tests_cant": "all values and lengths", "anchors": ["src/coordinax/_src/vectors/base/compat.py:convert", "src/coordinax/_src/vectors/d3/constructor.py", "src/coordinax/_src/vectors/base/base.py:from_"]}
{"id": "C42", "title": "Arithmetic and equality of Cartesian vectors across units", "statement": "Adding, subtracting or comparing two Cartesian vectors of the same class whose components are held in the same units gives the physical sum / difference / equality in the units of the left operand; CartesianPos3D addition does so for any length units. All the other operations raise when a unit differs, so they do not respect physical equality; converting both operands to common units first always works.", "quantifier": "all Cartesian vectors of dimension 1-3 (positions, velocities, accelerations), all component values, all unit combinations", "why_tests_cant": "every combination of units and values; the failing ones depend on tree structure rather than on a sampled value", "anchors": ["src/coordinax/_src/vectors/d1/cartesian.py", "src/coordinax/_src/vectors/d2/cartesian.py", "src/coordinax/_src/vectors/d3/cartesian.py", "src/coordinax/_src/vectors/base/base.py:__eq__"]}
{"id": "C43", "title": "jit transparency", "statement": "Running under jax.jit does not change results: if the eager call returns a value (with or without the dimension-change warning) the traced call returns the same value; if the eager call raises anything but a range violation, the traced call raises the same. Range violations are reported only eagerly (finding: under jit a vector outside its class's range is produced).", "quantifier": "all constructors, represent_as of positions/velocities/accelerations/spaces, arithmetic, operators and their inverses, frame transforms, distance and unit conversions; all arguments", "why_tests_cant": "all inputs and all operations", "anchors": ["src/coordinax/_src/vectors/checks.py", "src/coordinax/_src/vectors/d3/spherical.py:__check_init__"]}
{"id": "C45", "title": "N-dimensional Cartesian vectors behave as batches of N-vectors", "statement": "CartesianPosND and relatives: from_(array) and conversion back are inverse; shape is the array's shape without the last axis; T, reshape, flatten and indexing permute/select whole vectors; +, -, negation, scalar multiplication and norm act on each vector of the batch. Findings: mT raises for three or more axes, ravel merges all vectors into one, a scalar index on an unbatched vector yields a bare component, multiplication by an array raises.", "quantifier": "all dimensions N, batch shapes and values", "why_tests_cant": "unbounded dimension and batch shape", "anchors": ["src/coordinax/_src/vectors/dn/cartesian.py", "src/coordinax/_src/vectors/base/base.py"]}
{"id": "C44", "title": "Results do not depend on the unit of length", "statement": "Performing represent_as (with its length keywords), +, -, negation, scalar multiplication, norm or == on the component numbers expressed in another unit of length gives the same outcome, errors and warnings included, with all resulting lengths expressed in that unit.", "quantifier": "all positions with length-valued radial parts, all target classes, all unit ratios", "why_tests_cant": "continuum of values and unit ratios", "anchors": ["src/coordinax/_src/vectors/d3/transform.py", "src/coordinax/_src/vectors/base/base_pos.py"]}
{"id": "C46", "title": "Exchange with astropy keeps the vector", "statement": "Converting a Cartesian, cylindrical, spherical or lon-lat-spherical position (length-valued, valid) to an astropy representation gives its counterpart class denoting the same point; converting back gives the same object with the azimuth wrapped into [0,360) deg (hence exactly the same object if it was in range); T.from_(rep) for any astropy representation denotes the same point; astropy -> coordinax -> astropy is the identity; velocities round-trip component by component. Findings: the astropy class asked for in convert is ignored, MathSphericalPos/ProlateSpheroidalPos/other velocity classes .from_ return a different class, other classes cannot be converted.", "quantifier": "all valid positions, all velocities, every astropy representation in range, every astropy represent_as that keeps points", "why_tests_cant": "continuum of values", "anchors": ["src/coordinax/_interop/coordinax_interop_astropy/converters.py", "src/coordinax/_interop/coordinax_interop_astropy/constructors.py"]}
{"id": "C47", "title": "Batched conversions are element-wise", "statement": "For positions, velocities and accelerations of any batch shape, represent_as of the batch succeeds exactly when it succeeds for every element, has the batch shape of the converted vector, and its element at every index is the conversion of the elements at that index; in particular a batched velocity conversion keeps every element's physical meaning. Positions whose number of elements differs from the velocities' are rejected (no broadcasting), equal numbers in different shapes are paired in C order, but LonLat<->LonCosLat broadcasts.", "quantifier": "all batch shapes, classes, components", "why_tests_cant": "tests use a few fixed shapes; the flatten/reshape round trip must pair every index correctly for every rank", "anchors": ["src/coordinax/_src/vectors/transform/velocities.py:represent_as", "src/coordinax/_src/vectors/transform/accelerations.py:represent_as", "src/coordinax/_src/vectors/d3/transform.py:represent_as"]}
{"id": "C48", "title": "Algebra of rotation operators", "statement": "A @ B is the rotation 'first B, then A' (on positions of every class), associative, with the identity matrix as unit; (A@B).inverse = B.inverse@A.inverse; A@A.inverse is the identity exactly for orthogonal matrices (which the constructor does not check); -A is A followed by the point reflection (not the inverse, unlike -translation and -boost); from_euler accepts exactly 1-3 letters without immediate repetition, yields a proper rotation that turns about the fixed (lower case) or moved (upper case) axes in sequence, its inverse is the reversed sequence of opposite angles, and turns about one axis add.", "quantifier": "all 3x3 matrices, all sequences and angles, all positions", "why_tests_cant": "identities over continua of matrices and angles", "anchors": ["src/coordinax/_src/operators/galilean/rotation.py:GalileanRotation", "src/coordinax/_src/operators/galilean/rotation.py:matmul", "src/coordinax/_src/operators/galilean/boost.py:__neg__"]}
{"id": "C49", "title": "Functions of Angle and Distance objects are physical", "statement": "sqrt, cbrt, integer and real powers, cos, sin, tan and dot products of Angle / Distance / Parallax / DistanceModulus objects return a plain Quantity whose physical value is the function of the physical value of the argument and whose dimension is the corresponding power of its dimension, whatever units the arguments are in; cos/sin of an Angle have period one turn; tan of a Distance or DistanceModulus raises; negative square roots and non-integer powers of negative quantities give NaN. plum.convert between the quantity classes relabels without changing value or unit, or refuses a wrong dimension; an Angle or distance next to a Quantity is promoted to a Quantity with the same physical value.", "quantifier": "all values, all positive units, all integer and rational exponents, arrays of any length (dot)", "why_tests_cant": "every unit and exponent; tests sample a handful of doctest values", "anchors": ["src/coordinax/_src/angles/register_primitives.py", "src/coordinax/_src/distances/register_primitives.py", "src/coordinax/_src/angles/compat.py", "src/coordinax/_src/distances/compat.py"]}
{"id": "C50", "title": "Constructing operators, frames and vectors from other objects", "statement": "Building an operator from an array, a quantity, a vector, a scipy rotation or another operator gives the operator with exactly that effect on events: a spatial translation from a length array moves every point by it, a four-translation from (ct,x,y,z) delays by ct/c, rotations from equal matrices agree, boosts add v*t, Pipe(op) acts like op, and parts omitted from GalileanOperator do nothing (GalileanOperator() is the identity). `from_` applied to a vector, operator or frame either returns that very object or raises; which of the two is determined by the class alone. A Galactocentric frame imported from astropy has the same centre, Sun and solar velocity.", "quantifier": "all classes, all arguments (arrays of any length, any unit dimension, any vector, operator or frame), all events", "why_tests_cant": "Converters branch on type, shape and unit of arbitrary arguments, and the meaning of the result quantifies over all events.", "anchors": ["src/coordinax/_src/operators/base.py: AbstractOperator.from_", "src/coordinax/_src/operators/galilean/spatial_translation.py: _converter_spatialtranslation", "src/coordinax/_src/operators/galilean/composite.py: GalileanOperator", "src/coordinax/_src/operators/galilean/rotation.py: converter", "src/coordinax/_src/operators/pipe.py: _converter_seq", "src/coordinax/_src/vectors/base/base.py: from_", "src/coordinax/_src/vectors/d3/constructor.py", "src/coordinax/_src/frames/base.py: from_", "src/coordinax/_coordinax_space_frames/_interop/interop_astropy/frames.py"]}
{"id": "C51", "title": "Arithmetic, equality and linear conversion of velocities and accelerations", "statement": "v+w, v-w, k*v, -v, +v on velocities and accelerations are component-wise where they exist, and every other combination raises: sums need two Cartesian vectors of one class; differences exist for CartesianVel3D, CartesianAcc1D and CartesianAcc3D only; number*vector exists in 1 and 2 dimensions only and needs a scalar; vector*number and vector/number never exist. Summed velocities give summed displacements. Converting a velocity or acceleration to another class at a given position is linear (k v + l w converts to k v' + l w', negation commutes, success does not depend on the numbers), so in one and three dimensions the speed of k*v is |k| times that of v and the speed of a sum is at most the sum of the speeds. The norm of a Cartesian acceleration without arguments is its Euclidean norm; with a velocity and a position it raises TypeError. v == w holds exactly for the same class and components; a velocity never equals its conversion to another class.", "quantifier": "all velocity and acceleration classes and pairs of classes, all component values, all factors, all positions, units modes and keyword arguments", "why_tests_cant": "Linearity, homogeneity and the triangle inequality are statements about all pairs of vectors at all positions; the support table covers every pair of classes.", "anchors": ["src/coordinax/_src/vectors/d1/cartesian.py: _add_pp, _mul_vcart, _add_aa, _mul_aq, _sub_a1_a1", "src/coordinax/_src/vectors/d2/cartesian.py: _add_pp, _mul_vp, _add_aa, _mul_va", "src/coordinax/_src/vectors/d3/cartesian.py: _add_pp, _sub_v3_v3, _add_aa, _mul_ac3, _sub_a3_a3", "src/coordinax/_src/vectors/base/base.py: AbstractVector.__eq__, __mul__, materialise", "src/coordinax/_src/vectors/transform/velocities.py: represent_as"]}
{"id": "C52", "title": "normalize_vector gives the unit vector", "statement": "normalize_vector of an array or quantity turns every row with a non-zero entry into a positive multiple of itself with sum of squares 1, independently of the other rows; rows of zeros become undefined. A positive rescaling (or change of unit) of the input changes nothing, a negative one reverses the result, normalising twice is normalising once, and the result of a quantity is dimensionless. A CartesianPos3D gives the dimensionless CartesianGeneric3D with the same numbers, negation commutes with it, and every other position class is refused.", "quantifier": "all arrays of any batch size and any row length, all real entries, all units, all positions", "why_tests_cant": "Unit length and direction must hold for every vector of every length, not for sampled ones.", "anchors": ["src/coordinax/_src/vectors/funcs.py: normalize_vector", "src/coordinax/_src/vectors/d3/cartesian.py: normalize_vector", "src/coordinax/_src/vectors/d3/generic.py: CartesianGeneric3D"]}
{"id": "C53", "title": "Range checks reject an array exactly when one element is out of range", "statement": "The checks used by the vector constructors (non-negative, positive, polar range [0, pi], less than, at most, greater than, at least) raise if any element of the array violates the bound and otherwise return the array unchanged; equality with the bound is rejected by the strict checks and accepted by the others; the bound may be one value or one per element.", "quantifier": "all arrays of any length, all real elements and bounds", "why_tests_cant": "The statement is an equivalence over all array lengths, positions of the offending element and boundary values.", "anchors": ["src/coordinax/_src/vectors/checks.py: check_non_negative, check_non_negative_non_zero, check_polar_range, check_less_than, check_less_than_equal, check_greater_than, check_greater_than_equal"]}
{"id": "C54", "title": "Operators act on every element of a batch", "statement": "Applying an operator (translation, rotation, boost, pipe of any depth, Galilean operator) to an array of positions, to arrays of positions and times, or to an array of FourVectors gives a batch of the same (broadcast) shape whose element at every index is the result of the operator on that element; it succeeds exactly when it does on every element (a boost also needs positions and times of equal rank, or one of them single); going forth and back with the inverse returns every element. A boost raises when times and positions do not broadcast, and (finding) whenever their ranks differ and neither is a scalar, e.g. shapes (2,3) and (3,), also inside a FourVector, because jax.lax.add does not promote ranks; a FourVector is built exactly when the times broadcast to the shape of the positions. Finding: a spatial translation applied to arrays of positions with velocities multiplies the wrong axes: it raises, or for N equal to the dimension returns velocities of a wrong shape.", "quantifier": "all operators, all shapes of positions and times, all indices, all element values", "why_tests_cant": "Quantifies over all shapes, broadcasts and operator trees; tests fix a few shapes.", "anchors": ["src/coordinax/_src/operators/galilean/spatial_translation.py: call", "src/coordinax/_src/operators/galilean/translation.py: __call__", "src/coordinax/_src/operators/galilean/rotation.py: __call__", "src/coordinax/_src/operators/galilean/boost.py: __call__", "src/coordinax/_src/operators/pipe.py: __call__", "src/coordinax/_src/vectors/d4/spacetime.py: FourVector.__check_init__"]}
{"id": "C55", "title": "Vectors as dictionaries, replace, and name-based rules", "statement": "The dictionary of a vector has exactly the class's field names as keys in order; cls.from_(v.asdict()) is v, for the entries in any order, and whatever from_ accepts is the dictionary of its result; an unknown or missing name raises. replace(v) is v, replace(v, **kw) sets the named fields, keeps class and all other fields, and raises for an unknown name. components and units list the coordinates without attributes such as Delta. The velocity and acceleration code, which pairs rows and columns of the Jacobian with components by their names (d_x, d2_x) and builds products with times by renaming, pairs each component with its own coordinate; it fails by an exception, never by mixing coordinates, for LonCosLatSphericalVel (unless its own overloads are used) and for prolate accelerations.", "quantifier": "all vector classes, all vectors, all dictionaries and orders of entries, all keyword sets, all Jacobian matrices", "why_tests_cant": "Quantifies over all dictionaries, orders and keyword subsets for every class, and over all matrices.", "anchors": ["src/coordinax/_src/vectors/base/base.py: from_, asdict, components, units", "src/coordinax/_src/vectors/base/compat.py: field_items, AttrFilter", "src/coordinax/_src/vectors/base/attribute.py: VectorAttribute", "src/coordinax/_src/vectors/transform/velocities.py: represent_as", "src/coordinax/_src/vectors/transform/accelerations.py: represent_as", "src/coordinax/_src/vectors/base/base_vel.py: _mul_v_q", "src/coordinax/_src/vectors/base/base_acc.py: _mul_a_q"]}
{"id": "C56", "title": "Laws of conversion chains and of vector arithmetic", "statement": "Converting a 3-D or 2-D position through an intermediate class gives the same point as converting directly, and off the polar axis the very same object; converting a velocity through an intermediate class at one position gives exactly the same velocity. (p+q)+r and p+(q+r) are the same point whatever the classes, p-q is p+(-q), -(-p) is p, k(p+q)=kp+kq, k(lp)=(kl)p, 1p=p, (-1)p=-p, norm(kp)=|k| norm(p), norm(-p)=norm(p), norm(p+q)<=norm(p)+norm(q), norm(p-q)=norm(q-p).", "quantifier": "all positions and velocities of the plain classes, all chains of two conversions, all keyword arguments, all scalars, all mixtures of classes of equal dimension whose results the left operand's class can hold", "why_tests_cant": "Algebraic laws over all real inputs, all pairs and triples of classes and all chains of calls.", "anchors": ["src/coordinax/_src/vectors/base/base_pos.py: represent_as, __neg__, norm", "src/coordinax/_src/vectors/base/register_primitives.py", "src/coordinax/_src/vectors/transform: represent_as"]}
{"id": "C57", "title": "Conversions are correct in every choice of units", "statement": "Let every component of a position (and every keyword argument such as Delta, y, z, theta, phi) be given in its own unit of the right dimension. Then represent_as to any class raises the same exception, or emits the same warning and returns a position with the right dimensions whose values, expressed in SI units, are exactly those obtained by converting the SI values; in particular no unit error can arise and two inputs that are the same physical position in different units give the same physical result and the same point of space. rho of a cylindrical position comes out in the unit of x, phi in radian, z keeps its unit.", "quantifier": "all source positions (radial parts of class Distance, Parallax or DistanceModulus) in all units (independent per component), all keyword arguments, all target classes, all recursion depths, eager and traced", "why_tests_cant": "the combinations of units per component times classes times values are infinite; a test fixes a handful of units (usually one)", "anchors": ["src/coordinax/_src/vectors/transform/d1.py", "src/coordinax/_src/vectors/transform/d2.py", "src/coordinax/_src/vectors/d3/transform.py:represent_as", "src/coordinax/_src/vectors/transform/d3.py", "src/coordinax/_src/vectors/checks.py"]}
{"id": "C58", "title": "Velocities and accelerations convert correctly in every choice of units", "statement": "Let every component of a velocity (or acceleration), of its position (and velocity), and every keyword argument be in its own unit of the right dimension. represent_as of the velocity or acceleration to any class raises the same exception, or emits the same warning and returns components of the declared dimensions whose SI values are exactly those obtained by converting the SI values; no unit error can arise, and in 3-D the result is the same motion in space. From Cartesian to cylindrical, d_rho comes in the unit of d_x, d_phi in rad times that unit over the unit of x, d_z in the unit of d_x times the ratio of the units of z and x.", "quantifier": "all velocity and acceleration classes and targets, all positions, all units per component, all keyword arguments, eager and traced", "why_tests_cant": "units of position, velocity and keyword arguments vary independently and infinitely; the derivative is taken of the stored numbers, so an error shows only for particular mixtures of units", "anchors": ["src/coordinax/_src/vectors/transform/velocities.py:represent_as", "src/coordinax/_src/vectors/transform/accelerations.py:represent_as", "src/coordinax/_src/vectors/d3/transform.py:represent_as"]}
{"id": "C59", "title": "In floating point, conversions out of Cartesian coordinates stay in range and accurate", "statement": "In binary32, binary64 or bfloat16 arithmetic with round-to-nearest, gradual underflow and overflow, and any mathematical library whose acos and atan2 results are in range: represent_as of a Cartesian position to spherical, math-spherical, lon-lat, cylindrical or polar coordinates (and of a cylindrical one to spherical) never raises a range error and never gives NaN, provided some component's square is a normal number and none overflows; the computed radius is at least as large as each component's magnitude, the polar angle is in [0, rounded pi], the latitude in plus or minus half of it, and the azimuth in [0, 2 rounded pi]. Without underflow the radius is within (1+u)^3 of the exact length. Exceptions that hold for whole ranges of inputs: vectors whose squares underflow get radius 0 and NaN polar angle, components whose squares overflow get a non-finite radius (1 kpc in metres in binary32), and every point (x,0,1) with x^2 <= u/2 gets polar angle exactly 0.", "quantifier": "all floating-point components, all formats of the usual shape, all mathematical libraries in range, eager and traced", "why_tests_cant": "the claim is about every triple of floats (2^96 or more); the bad cases of sqrt(x^2+y^2+z^2) < |z| would be isolated bit patterns", "anchors": ["src/coordinax/_src/vectors/d3/transform.py:represent_as", "src/coordinax/_src/vectors/d2/transform.py:represent_as", "src/coordinax/_src/vectors/checks.py:check_polar_range"]}
{"id": "C60", "title": "In floating point, angle wrapping and the tolerant constructors stay in the closed range", "statement": "In the same floating-point arithmetic, wrapping an angle modulo M (360 deg or rounded 2 pi) always gives a finite number in the closed interval [0, M], keeps angles already in [0, M) unchanged, and otherwise differs from the input by a whole multiple of M up to one rounding. SphericalPos.from_, MathSphericalPos.from_ (any finite radius, angles below the overflow limit) and LonLatSphericalPos.from_ (latitudes within 270 deg) always succeed with a non-negative radius and a polar angle or latitude in range. Exception: the documented half-open range is not kept, since every negative angle closer to zero than u/2 wraps to M itself.", "quantifier": "all floating-point angles and moduli, all radii, all formats, both kinds of azimuth argument", "why_tests_cant": "must hold for every float; the failing inputs are tiny negative angles that tests do not try", "anchors": ["src/coordinax/_src/vectors/converters.py:converter_azimuth_to_range", "src/coordinax/_src/vectors/d3/spherical.py:from_", "src/coordinax/_src/vectors/d3/mathspherical.py:from_", "src/coordinax/_src/vectors/d3/lonlatspherical.py:from_"]}
{"id": "C61", "title": "In floating point, conversions to Cartesian coordinates and the cylindrical round trip are accurate", "statement": "If the library's sine and cosine have absolute error at most e and its atan2 at most ea, then represent_as from polar, cylindrical and spherical coordinates to Cartesian coordinates always succeeds with finite components whose error is at most (u+e) r (polar, cylindrical, z of spherical) or 2 (u+e) r (x, y of spherical) plus one or two smallest positive numbers; and Cartesian to cylindrical and back returns x and y to within (22 u + 2 e + 2 ea) sqrt(x^2+y^2) plus the smallest positive number, and z exactly.", "quantifier": "all floating-point components, all formats of the usual shape, all mathematical libraries with the stated accuracy", "why_tests_cant": "a bound on the error of every float input cannot be sampled; worst cases are rare", "anchors": ["src/coordinax/_src/vectors/d3/transform.py:represent_as", "src/coordinax/_src/vectors/d2/transform.py:represent_as"]}
{"id": "C62", "title": "Array functions on vectors and spaces", "statement": "jnp.broadcast_to of a vector to (shape..., n) gives a vector of that shape whose element at every index is the one NumPy's broadcasting rule assigns, which is the broadcast of the array the vector converts to; it raises ValueError for an incompatible shape; the last entry is ignored. jnp.reshape of a position to (k, shape...) equals reshape(k/n, shape...) of its n components in C order if n divides k and the components have full shape, and raises TypeError otherwise; the resulting vector's array never has the shape asked for. astype converts every number, keeps shape and ranges, and raises if a converted number is out of range. T, mT, flatten, ravel of a Space act on every vector and keep the keys; asdict, shapes agree with lookup.", "quantifier": "all vectors of any number of components, all component shapes, all target shapes, all spaces", "why_tests_cant": "quantifies over all shapes, ranks and broadcasting patterns", "anchors": ["src/coordinax/_src/vectors/base/register_primitives.py:_broadcast_in_dim_p", "src/coordinax/_src/vectors/base/register_primitives.py:_convert_element_type_p", "src/coordinax/_src/vectors/base/base_pos.py:_reshape_pos", "src/coordinax/_src/vectors/space/core.py:Space.T"]}
{"id": "C63", "title": "Vector attributes and attribute access", "statement": "A vector attribute declared without default (Delta) is a required argument and with default (c) an optional one, which is then the converted default; a value given is converted; the attribute of a finished class is always recognisable from the class. A FourVector answers its own attributes and delegates every other to its spatial part. The repr bundle contains exactly the supported formats asked for and not excluded, exclude being ignored when include is given.", "quantifier": "all attributes, converters, defaults, names, include/exclude lists", "why_tests_cant": "quantifies over all converters and names", "anchors": ["src/coordinax/_src/vectors/base/attribute.py:VectorAttribute", "src/coordinax/_src/vectors/d4/spacetime.py:FourVector.__getattr__", "src/coordinax/_src/vectors/base/mixins.py:IPythonReprMixin._repr_mimebundle_"]}
{"id": "C64", "title": "Position arithmetic in any units", "statement": "-v, k*v, v/k, v*w, v.norm() and, in space, v+w with components in arbitrary units of the right dimension (each component its own, the operands different ones) give the same outcome as on the SI values: the same exception or the same warning and a result of the right dimensions with the same SI values. v-w, v == w, and v+w on the line and in the plane do the same, or raise ValueError: they do so exactly when the units of the Cartesian components (for ==, of the components in the class of v) differ, because jax.tree.map refuses unequal units. So sums, differences, multiples and norms are those of the points and equality compares points. A sum is in the units of the left operand, a Cartesian norm in the unit of x; in space v+w and w+v are equal positions in possibly different units.", "quantifier": "all position classes, all values, all units, operands of different classes and units, validation modes, unxt decoration choices", "why_tests_cant": "quantifies over all units, values and class pairs", "anchors": ["src/coordinax/_src/vectors/base/base_pos.py:_add_qq", "src/coordinax/_src/vectors/base/base_pos.py:_sub_qq", "src/coordinax/_src/vectors/base/base_pos.py:AbstractPos.norm", "src/coordinax/_src/vectors/base/base_pos.py:AbstractPos.__eq__"]}
{"id": "C65", "title": "Cartesian arithmetic and norms in floating point", "statement": "In binary32, binary64 or any IEEE-like binary format: the sum and difference of finite Cartesian positions never raise, each coordinate is the exact one with relative error at most u (also under gradual underflow) and not finite only on overflow; addition is commutative bit by bit; negation is exact and an involution; v-w is v+(-w) bit by bit; v-w is zero exactly when v equals w, which is when v == w; the norm of a 3-D position is bit for bit the spherical radius and within (1+u)^3 of the length; norm(-v) = norm(v); multiplication rounds once and by a power of two is exact barring under/overflow. Not: associativity, (v+w)-w = v, norm(v)=0 only for v=0.", "quantifier": "all binary formats of at least 8 bits, all finite (and for the bitwise laws all) coordinates in 1-3 dimensions, any math library", "why_tests_cant": "quantifies over all floating-point values and formats", "anchors": ["src/coordinax/_src/vectors/d3/cartesian.py:_add_cart3d_pos", "src/coordinax/_src/vectors/d3/cartesian.py:_sub_cart3d_pos", "src/coordinax/_src/vectors/base/base_pos.py:AbstractPos.norm"]}
{"id": "C66", "title": "Operators in any units", "statement": "Calling an operator (identity, translations, rotation, boosts, pipes, GalileanOperator, nested at will) on a 3-D position, a 3-D position with a time, or a FourVector whose quantities carry arbitrary units gives the same exception or the same result, up to the unit it is written in, as the same call on SI values; in one and two dimensions it gives that or raises ValueError; the inverse is the same in any units. Hence the calls act on events as the Galilean group says and in space the inverse undoes the operator on Cartesian positions in whatever units (a boost in km/s, a time in Myr, a position in kpc). A translated or boosted position keeps its own units component by component; a rotated one comes out in the unit of x. A Cartesian translation or boost in the plane raises ValueError exactly when the displacement's units differ from those of the position, so km/s over Myr is refused in kpc.", "quantifier": "all operators (any nesting and length), all arguments, all positive unit scales, each parameter and component with its own unit, eager and traced", "why_tests_cant": "ranges over all operator trees, values and units", "anchors": ["src/coordinax/_src/operators/base.py:AbstractOperator.__call__", "src/coordinax/_src/operators/galilean/boost.py:GalileanBoost.__call__", "src/coordinax/_src/operators/galilean/rotation.py:GalileanRotation.__call__", "src/coordinax/_src/operators/galilean/translation.py:GalileanTranslation.__call__", "src/coordinax/_src/operators/pipe.py:Pipe"]}
{"id": "C67", "title": "Operators in floating point", "statement": "In binary32, binary64 or any IEEE-like format, for operators with Cartesian parameters: the inverse of every operator tree is computed without rounding and inverting twice gives the operator back bit for bit; pipes compose exactly; translating by b and back returns x bit for bit when x+b is representable and is otherwise off by at most u|x|+u(1+u)|x+b|; a chain of n translations is off by at most ((1+u)^n-1) times the sum of the absolute values; each component of a rotated position is within ((1+u)^3-1) of the sum of the absolute terms plus underflow, so a rotation by a matrix within e of an exact one keeps lengths up to a stated bound; quarter turns and reflections are exact and are undone bit for bit; a boost is accurate and at time zero does nothing. Not: exact round trips in general, merging translations. A translation in space and time of an event (a position with a time, or a FourVector) rounds each coordinate and the time once and keeps the event's speed of light.", "quantifier": "all binary formats of at least 8 bits, all finite inputs below the overflow limit, all operator trees (inverse, composition), chains of any length, any math library", "why_tests_cant": "quantifies over all floating-point values, formats and chain lengths", "anchors": ["src/coordinax/_src/operators/galilean/rotation.py:GalileanRotation.__call__", "src/coordinax/_src/operators/galilean/spatial_translation.py:GalileanSpatialTranslation.__call__", "src/coordinax/_src/operators/galilean/boost.py:GalileanBoost.__call__", "src/coordinax/_src/operators/pipe.py:Pipe"]}
{"id": "C68", "title": "Frame transformations in any units", "statement": "The ICRS <-> Galactocentric operators, and pipes of them, give the same physical result, the same warnings and the same errors whatever units the frame parameters (angles, distance, height of the Sun, solar velocity) and the arguments are in; the inverse undoes the operator in any units; the Galactic centre goes to the origin, the Sun to its documented place, and a star at rest with respect to the Sun gets the solar velocity in any units; lengths come out in the unit of the argument's first length and speeds in the unit of its first speed, whatever the units of the frame; a galcen distance that is not a length fails.", "quantifier": "all Galactocentric frames and arguments in all units of the right dimension, all nested pipes, velocities differentiated through the Jacobian", "why_tests_cant": "quantifies over all unit scales of every field and component", "anchors": ["src/coordinax/_coordinax_space_frames/frame_transforms.py:_icrs_cartesian_to_gcf_cartesian_matrix_vectors", "src/coordinax/_coordinax_space_frames/frame_transforms.py:_ICRS2GCFOperator", "src/coordinax/_coordinax_space_frames/frame_transforms.py:_GCF2ICRSOperator", "src/coordinax/_coordinax_space_frames/galactocentric.py:Galactocentric"]}
{"id": "C69", "title": "Operators on velocities in any units", "statement": "Applying an operator to a velocity, op(p), or to a position with a velocity, op(q, p), in space commutes with converting all parameters and arguments to SI: same exception or same warning, a result of the right dimensions, and the same physical values - although a spatial translation differentiates itself on the stored numbers - provided that the velocity and the velocity boosts of the operator (if it has any) use one unit; in all other cases it does that or raises ValueError. So changing units changes nothing else; translations leave the velocity of the motion alone (also for curvilinear components), velocity boosts add to it, the position moves as the Galilean group says, and the inverse operator undoes the operator. A velocity boost of a Cartesian velocity keeps its units, and raises ValueError exactly when a component has another unit; a translated Cartesian velocity comes out in the unit of its first component while the position keeps its units.", "quantifier": "every operator built from identities, translations, rotations, boosts, velocity boosts and pipes with parameters in any units, every position and velocity class in any units", "why_tests_cant": "the units of q, p, the translation and the boost vary independently, for every operator tree; tests use a few unit combinations", "anchors": ["src/coordinax/_src/operators/galilean/spatial_translation.py: call (q, p)", "src/coordinax/_src/operators/boost.py: VelocityBoost.__call__", "src/coordinax/_src/operators/pipe.py: Pipe", "src/coordinax/_src/vectors/transform/velocities.py: represent_as", "src/coordinax/_src/vectors/base/compat.py: convert to Quantity"]}
{"id": "C70", "title": "FourVectors in any units and their inherited operations", "statement": "Adding, negating and dividing FourVectors, their interval norm2 and norm, and their conversion to and from arrays commute with converting time, position and speed of light to SI, each in a unit of its own: same exception or same warning, right dimensions, same physical values; subtraction does so if the Cartesian coordinates have the same units and raises ValueError if not. So the sum of two events is the event sum, norm2 is (c t)^2 - |x|^2 and norm its principal complex square root in one unit of length, for any units and any position class; the array comes in the unit of c times the unit of t; an array of lengths survives the trip through a FourVector exactly, unit included, and other dimensions are rejected. v / k divides the event and divides the interval by k^2 (Cartesian coordinates). Multiplication by a number, comparison, and adding a position raise for every FourVector.", "quantifier": "every FourVector whose time, components and c are quantities of the right dimension in any units, every 3-D position class, every array length and dimension", "why_tests_cant": "three independent unit choices per vector and every real value; tests use km/s, s and m", "anchors": ["src/coordinax/_src/vectors/d4/spacetime.py: FourVector, _add_4v4v, _sub_4v_4v", "src/coordinax/_src/vectors/d4/compat.py: vec_to_q", "src/coordinax/_src/vectors/base/base_pos.py: _div_pos_v, _mul_v_pos, __eq__, _add_qq"]}
{"id": "C71", "title": "Velocity and acceleration arithmetic in every choice of units", "statement": "Whatever units the components carry: v+w and v-w of velocities or accelerations give the physical sum or difference, in the units of the left operand, when the operands have the same units component by component, and raise ValueError when they do not; k*v, -a and their SI values agree and keep the units; v*t for a time t is the physical displacement and any other quantity (or t*v) raises; a*t, t*a is a velocity, a*t^2 a position, anything else raises; v.norm(q) and a.norm() have the dimension of speed and acceleration and the SI value of the SI run; v == w is False for different classes, decided by the SI values for equal units, ValueError for unlike units; displacements of summed velocities are summed displacements.", "quantifier": "all velocity and acceleration classes, all component values and units (per component), all factors, times, positions and unit modes", "why_tests_cant": "Units range over a continuum of scales per component; each operation must be right for every combination.", "anchors": ["src/coordinax/_src/vectors/base/base_vel.py: _mul_vel_q, norm", "src/coordinax/_src/vectors/base/base_acc.py: _mul_aq, _mul_qa, _mul_acc_q2, norm", "src/coordinax/_src/vectors/base/base.py: AbstractVector.__eq__", "src/coordinax/_src/vectors/d1/cartesian.py: _add_pp, _mul_vcart, _add_aa, _mul_aq, _sub_a1_a1", "src/coordinax/_src/vectors/d3/cartesian.py: _add_pp, _sub_v3_v3, _add_aa, _sub_a3_a3"]}
{"id": "C72", "title": "Arithmetic and equality of arrays of vectors act on every element", "statement": "For arrays of Cartesian positions, velocities or accelerations (component arrays of any, possibly different, shapes), v + w and v - w have the shape the two batches broadcast to and their element at every index is the sum (difference) of the elements there; they are computed exactly when every pair of components has equal rank or a scalar member and broadcasts, otherwise TypeError; -v, k * v (numbers only) and q / a (any array, numpy broadcasting, constructor checks on every component) act on every element; v == w is an array of the broadcast shape that is True exactly at the indices where the two finite vectors agree in every component. Findings: batches of different ranks that numpy broadcasts, e.g. (2,3) and (3,), cannot be added; a sum of batches that do not broadcast may succeed and then has no shape; a vector whose components have different shapes (so every array of prolate spheroidal positions) cannot be compared with itself: == raises.", "quantifier": "all numbers of components, all shapes of all components, all indices, all values, all divisor arrays", "why_tests_cant": "Ranges over all shapes of each component separately, all broadcasts and all indices.", "anchors": ["src/coordinax/_src/vectors/d1/cartesian.py: _add_qq, _mul_ac1, _sub_q1d_pos, _add_pp, _add_aa", "src/coordinax/_src/vectors/d2/cartesian.py: _add_cart2d_pos, _sub_cart2d_pos2d", "src/coordinax/_src/vectors/d3/cartesian.py: _add_cart3d_pos, _sub_cart3d_pos, _neg_p_cart3d_pos", "src/coordinax/_src/vectors/base/base_pos.py: _div_pos_v", "src/coordinax/_src/vectors/base/base.py: AbstractVector.__eq__"]}
{"id": "C73", "title": "Arrays of FourVectors behave element by element, with broadcast times", "statement": "A FourVector holding an array of positions of shape s accepts exactly the times whose shape broadcasts to s, and then has shape s. Sums and differences of two such FourVectors, when they succeed, are taken event by event over the broadcast shape (t, x, y and z all with the same event), the attribute c coming from the left operand; they succeed exactly when the sums of the positions do, and otherwise raise. Negation negates every coordinate of every event. The squared norm is (c t)^2 - (x^2+y^2+z^2) at every index. With a time for every position, convert(v, Quantity) gives an array whose last axis is (c t, x, y, z), FourVector.from_ inverts it, and arrays with another last axis are refused. flatten, ravel and T keep every event together when the times have the full shape or are a single number. mT swaps the last two axes of every component when the times have the full number of axes. Findings, stated as theorems: mT raises when the times have fewer than two axes; conversion to an array fails whenever the times still have to be broadcast; == fails for every FourVector that is not a single event; flatten fails and T attaches the wrong times to the positions when times are given per column; v[i], v.reshape and hence iteration always raise.", "quantifier": "all shapes of times and of the three position components, all element values, all indices", "why_tests_cant": "unit tests use one or two shapes, usually scalars; the claims range over all shapes and all ways in which times broadcast", "anchors": ["src/coordinax/_src/vectors/d4/spacetime.py: FourVector, _add_4v4v, _sub_4v_4v", "src/coordinax/_src/vectors/d4/compat.py: vec_to_q", "src/coordinax/_src/vectors/utils.py: full_shaped", "src/coordinax/_src/vectors/base/base.py: AbstractVector.__eq__, __getitem__, flatten, ravel, reshape, T"]}
{"id": "C74", "title": "In floating point, velocity conversions are finite and accurate away from the axis", "statement": "With every operation of the conversion and of its forward-mode derivative rounded (binary32, binary64, bfloat16; sine and cosine of absolute error at most e): represent_as of a polar or cylindrical velocity to Cartesian always succeeds with finite components within (4u+e)(|v_r|+r|v_phi|) of the exact ones, and of a spherical velocity within (6u+2e)(|v_r|+r|v_theta|+r|v_phi|), plus a few smallest positive numbers; d_z of a cylindrical velocity is kept exactly. A Cartesian velocity converts to polar and cylindrical components within 13u(|vx|+|vy|) radially and 11u(|y vx|+|x vy|)/rho^2 in azimuth, provided the squares of the coordinates neither underflow nor overflow. LonLat to LonCosLat is within (u+e)|v| and the way back returns the velocity within 3u|v| unless the computed cosine is 0. Accelerations are computed from the same numbers in the same way. Finding: wherever both squares underflow (any point closer than about 2^-75 to the axis in binary32) both polar components are NaN although the exact ones are finite, and nothing is raised. Finding: close to the axis, where the computed polar angle is 0, the polar component of a spherical velocity is NaN.", "quantifier": "all floating-point positions and velocities within the stated ranges, all formats of the usual shape, all mathematical libraries of the stated accuracy, eager and traced", "why_tests_cant": "rounding errors accumulate differently for every input; tests compare with tolerances at a few points", "anchors": ["src/coordinax/_src/vectors/transform/velocities.py", "src/coordinax/_src/vectors/transform/accelerations.py", "src/coordinax/_src/vectors/d2/transform.py", "src/coordinax/_src/vectors/d3/transform.py"]}
{"id": "C75", "title": "Distances, parallaxes and distance moduli are right in every unit and shape", "statement": "For arrays of any shape: the Distance constructor accepts exactly quantities of dimension length, Parallax exactly angles without a negative element (the sign is not checked under jit or with check_negative=False), DistanceModulus exactly quantities in the unit mag; anything else raises ValueError. distance, parallax and distance_modulus then always succeed, keep the shape, and compute for every element the SI value C34 gives for the SI value of the element, whatever unit the object is in; the results are in AU (from a parallax), pc (from a modulus), radians and mag. All six round trips between the three classes return the same physical values. from_ of a quantity chooses the conversion by its dimension and refuses every other dimension. plum.convert, also of an astropy Quantity, keeps value and unit or raises, and converting to Quantity and back is the identity. Findings: a modulus in millimagnitudes is refused by the constructor though Distance.from_ accepts the same quantity; convert to another distance class raises ValueError.", "quantifier": "all shapes, all elements, all units (positive scale) of every dimension, eager and traced", "why_tests_cant": "units and array shapes are unbounded; tests use one element in one or two units", "anchors": ["src/coordinax/_src/distances/core.py", "src/coordinax/_src/distances/compat.py", "src/coordinax/_interop/coordinax_interop_astropy/distance.py"]}
{"id": "C76", "title": "ICRS <-> Galactocentric in floating point: accurate, invertible to rounding, and its limits", "statement": "With every operation rounded (binary32, binary64, bfloat16-like formats when the library is accurate enough), a frame given by numbers of the format (roll within 4 rad, Sun no higher than half its distance d from the centre) and no coordinate near overflow, writing eps = (error of sine/cosine) + (error of arcsine) + 8u + smallest positive number: both operators succeed on position arrays, position/velocity arrays and Cartesian vectors; ICRS to Galactocentric gives positions within 32 eps (|x|+d) and velocities within 32 eps (|v|+|v_sun|) of those of exact arithmetic, and Galactocentric to ICRS within 32 eps |x| + 100 eps d and 32 eps (|v|+|v_sun|) (plus 24 smallest positive numbers); |.| is the sum of the absolute coordinates. The operator followed by its inverse, in either order, returns the position within 512 eps (|x|+d) and the velocity within 512 eps (|v|+|v_sun|). The derivative used for velocities is the computed rotation matrix exactly. Finding: all positions within u d/16 of the Sun (about 6 au in single precision) get one and the same Galactocentric x coordinate.", "quantifier": "all frames, positions and velocities of the stated kind, all formats, all mathematical libraries of the stated accuracy, eager and traced", "why_tests_cant": "rounding errors differ for every input and frame; tests compare with tolerances at a few points", "anchors": ["src/coordinax/_coordinax_space_frames/frame_transforms.py", "src/coordinax/_coordinax_space_frames/galactocentric.py", "src/coordinax/_src/operators/galilean/rotation.py"]}
{"id": "C77", "title": "FourVectors in floating point", "statement": "In IEEE binary arithmetic of any precision: the interval (ct)^2 - |q|^2 of a FourVector is computed to within ten rounding errors of (ct)^2 + |q|^2; an event whose interval exceeds that error is reported with the right causal character (real norm if time-like, imaginary if space-like) and its norm squared is right to fourteen rounding errors of (ct)^2 + |q|^2. Sums and differences have correctly rounded time and coordinates (or overflow only when the exact result does), the negative is exact and has the same norm bit for bit; writing an event to an array and reading it back keeps its position exactly and its time to three rounding errors. Finding: below the error the causal character can be wrong: a space-like event is reported as null.", "quantifier": "all binary formats (binary32, binary64, bfloat16 ...), all events in range, any mathematical library", "why_tests_cant": "cancellation between time and space terms makes the worst case depend on the exact values; tests sample a few events, and the sign of a small interval is exactly what sampled values do not exercise", "anchors": ["src/coordinax/_src/vectors/d4/spacetime.py: FourVector._norm2, norm, from_", "src/coordinax/_src/vectors/d4/compat.py", "src/coordinax/_src/vectors/base/base_pos.py: norm"]}
{"id": "C78", "title": "Arithmetic of velocities and accelerations in floating point", "statement": "In IEEE binary arithmetic of any precision: sums of two Cartesian velocities or accelerations of one class and differences (CartesianVel3D, CartesianAcc1D, CartesianAcc3D) have every component correctly rounded, not finite only if the exact component overflows; sums commute bit for bit and a difference vanishes exactly for equal velocities. Negation is exact and undoes itself for every class. Multiples, displacements v*t and a*t^2 and gained velocities a*t have components with one rounding error. All other combinations of classes raise as in exact arithmetic. The speed of a CartesianVel3D and the norm of a CartesianAcc3D equal, bit for bit, the norm of the position with the same coordinates (three rounding errors); in one dimension the norm is exact. == holds exactly for the same class and numbers. Finding: a representable speed whose square overflows is reported as infinite.", "quantifier": "all binary formats, all Cartesian velocities and accelerations, all factors and times, all positions, any mathematical library", "why_tests_cant": "rounding and overflow depend on every bit of the operands; a test samples a few of 2^64 pairs", "anchors": ["src/coordinax/_src/vectors/d1/cartesian.py", "src/coordinax/_src/vectors/d2/cartesian.py", "src/coordinax/_src/vectors/d3/cartesian.py", "src/coordinax/_src/vectors/base/base_vel.py", "src/coordinax/_src/vectors/base/base_acc.py"]}
{"id": "C79", "title": "Distances, parallaxes and moduli in floating point", "statement": "With every operation and unit conversion rounded (binary32, binary64, bfloat16-like formats) and a library for tan, arctan2, log10 and 10**x of relative error e, writing h = e + rounding error (at most 1/100) and staying inside the normal range: a length in any unit has its parallax to 4h and passes the negative-parallax check; a parallax in radians has its length to 2h; a modulus is right to h(13+2|mu|) and 10**(mu/5+1) to h(15+3|mu|). The modulus of a parallax is right to h(19+2|mu|) and the parallax of a modulus to h(30+6|mu|), through the length between them. Length to parallax and back keeps lengths of at least 1 AU to 28h, parallax to length and back keeps every parallax below pi/2 to 4h, length to modulus and back keeps lengths to h(34+6|mu|). A negative parallax is rejected outside jit. Finding: in single precision every positive length up to 1.5e-8 AU (2.2 km) has the same parallax, slightly above pi/2, and comes back as one and the same negative distance.", "quantifier": "All binary formats of at least 8 bits of the usual shape, all libraries of the stated accuracy, all lengths, units, parallaxes and moduli in the normal range, eager and jitted.", "why_tests_cant": "Tests compare a few values with a tolerance; the error bounds hold for all values and the failure near pi/2 needs lengths of kilometres that no test uses.", "anchors": ["src/coordinax/_src/distances/core.py: Distance.parallax, Distance.distance_modulus, Parallax.distance, DistanceModulus.distance, Distance.from_, Parallax.from_"]}
{"id": "C80", "title": "Operators on velocities in floating point", "statement": "With every operation rounded, for positions with a velocity: a spatial translation leaves a Cartesian velocity unchanged bit for bit (for a position of any class, even with coordinates that are not finite) and gives the correctly rounded position; a velocity boost adds with one rounding per component and leaves the position; a boost and its inverse return the velocity up to u|x| + u(1+u)|x+b|, exactly if the sum is a number of the format; in any interleaving of n translations and k boosts the position error is at most ((1+u)^n-1) and the velocity error ((1+u)^k-1) times the sum of absolute values, and interleavings with the same translations and boosts in order give the same bits. Rotations and Galilean operators raise NotFoundLookupError, as does a pipe of two or more operators on a single velocity. Finding: a velocity component that has overflowed makes the other components not finite under a translation.", "quantifier": "All binary formats of at least 8 bits of the usual shape, all libraries, all operators, positions and velocities, pipes of every length and order.", "why_tests_cant": "Bit-for-bit claims over all floating-point inputs and error bounds over pipes of any length and interleaving cannot be enumerated.", "anchors": ["src/coordinax/_src/operators/galilean/spatial_translation.py: GalileanSpatialTranslation.__call__", "src/coordinax/_src/operators/boost.py: VelocityBoost", "src/coordinax/_src/operators/pipe.py: Pipe.__call__", "src/coordinax/_src/vectors/d3/cartesian.py: CartesianVelocity3D"]}
{"id": "C81", "title": "Cartesian to spherical and back in floating point", "statement": "For a finite Cartesian position whose coordinates do not underflow or overflow when squared and are not all zero, converting to spherical coordinates and back, with every operation rounded, succeeds in both directions and returns, with d the length, rho the distance from the z axis, u the relative rounding error, e, ea and ec the absolute errors of sin/cos, atan2 and acos: z up to (11u + 2e + ec + eta) d + eta; x and y up to (23u + 3e + ea + ec) d + 2 eta + B d, where B is sqrt(10u + 2 eta) for every position and (10u + 2 eta) d/rho off the axis. Finding: the loss is real: (x, 0, 1) with x^2 <= u/2 (1.7e-4 in binary32) comes back as exactly (0, 0, 1).", "quantifier": "All binary formats of at least 8 bits of the usual shape, all mathematical libraries with the stated accuracy, all usable positions, both evaluation modes.", "why_tests_cant": "An error bound over all floating-point inputs cannot be established by sampling; the square-root loss occurs only near the axis.", "anchors": ["src/coordinax/_src/vectors/d3/transform.py:represent_as", "src/coordinax/_src/vectors/d3/spherical.py:SphericalPos"]}
{"id": "C82", "title": "Spherical, MathSpherical and LonLat in floating point", "statement": "Converting any constructed SphericalPos to MathSphericalPos and back, or the other way round, returns the same object bit for bit, whatever the components (finite or not). Between SphericalPos and LonLatSphericalPos the distance and the azimuth are copied bit for bit and the results are always in range; the latitude is 90 deg minus the polar angle up to 4u, exactly when the angle converted is at least 45 deg, and then the round trip is exact; otherwise it is exact up to 4u, and one more conversion gives the same bits again. LonLat positions convert to Cartesian with x, y within (8u+2e) r + 2 eta and z within (7u+e) r + eta of r cos lat cos lon, r cos lat sin lon, r sin lat; MathSpherical ones within 2(u+e) r + 2 eta. Finding: polar angles smaller than u (1e-16 in binary64) become latitude exactly 90 deg and come back as 0.", "quantifier": "All binary formats of at least 8 bits of the usual shape, all mathematical libraries with error at most e, all positions with components in range, both evaluation modes.", "why_tests_cant": "Bit-exactness and error bounds over all floating-point inputs cannot be sampled; the inexact half of the latitudes and the pole need the spacing of the format.", "anchors": ["src/coordinax/_src/vectors/d3/transform.py:represent_as", "src/coordinax/_src/vectors/d3/lonlatspherical.py:LonLatSphericalPos", "src/coordinax/_src/vectors/d3/mathspherical.py:MathSphericalPos"]}
{"id": "C83", "title": "Cylindrical-spherical and plane polar round trips in floating point", "statement": "In floating point, SphericalPos to CylindricalPos copies the azimuth bit for bit and gives rho and z within (u+e)|r| + eta of |r sin theta| and r cos theta, with rho never negative. CylindricalPos to SphericalPos and back keeps the azimuth bit for bit, z within (11u+2e+ec+eta) d + eta, and rho within (6u+3e+ec) d + eta plus (10u+2 eta) d^2/rho off the axis, or sqrt(10u+2 eta) d everywhere. In the plane, CartesianPos2D to PolarPos gives the radius within 4u relative error and the round trip returns each coordinate within (22u+2e+2ea) d + eta, with no special direction.", "quantifier": "All binary formats of at least 8 bits of the usual shape, all libraries with the stated accuracies, all positions whose components neither overflow nor underflow when squared, both evaluation modes.", "why_tests_cant": "Error bounds over all floating-point inputs cannot be sampled.", "anchors": ["src/coordinax/_src/vectors/d3/transform.py:represent_as", "src/coordinax/_src/vectors/d2/transform.py:represent_as"]}
{"id": "C84", "title": "In floating point, scaling by a power of two scales the result exactly", "statement": "Multiplying the lengths of a position by 2^k, as long as no square overflows or underflows on either scale, multiplies the computed radius by exactly 2^k and leaves the computed angles bit for bit the same, for CartesianPos3D to SphericalPos and to CylindricalPos and for CylindricalPos to SphericalPos. Units that differ by a power of two are therefore interchangeable without rounding differences.", "quantifier": "All binary formats of at least 8 bits of the usual shape, all libraries whose atan2 depends only on the ratio, all k, all positions scalable by 2^k, both evaluation modes.", "why_tests_cant": "A bit-for-bit claim for every scale and every floating-point position cannot be enumerated.", "anchors": ["src/coordinax/_src/vectors/d3/transform.py:represent_as", "src/coordinax/_src/vectors/d3/cartesian.py:CartesianPos3D"]}
{"id": "C85", "title": "normalize_vector in floating point", "statement": "For every row length, every row of representable numbers and every order in which the squares are added up (XLA may pick any): over the real numbers the order makes no difference and the result is the unit vector of C52; in floating point, if the sum of squares cannot overflow and no square underflows, every component of the result is a number in [-1, 1] and differs from the exact unit vector's by at most ((1+u)^(n+1)-1)+u+eta; negating the input negates the output bit for bit; scaling the input by a power of two that causes no overflow or underflow does not change a single bit. Finding: a row whose squares all underflow to zero, although it is not the zero vector, yields no direction at all (0/0).", "quantifier": "all floating-point formats, all elementary-function libraries, all rows of any length, all summation trees, all powers of two", "why_tests_cant": "The claim ranges over every rounding of every row in every summation order; tests sample a few rows on one backend.", "anchors": ["src/coordinax/_src/vectors/funcs.py:normalize_vector"]}
{"id": "C86", "title": "Quantities with units in floating point", "statement": "When all lengths are in one unit and all angles in radian, represent_as on quantities of any class, with any keyword arguments, performs exactly the operations of the plain floating-point numbers: the same exception or the same warning and, bit for bit, the same numbers with the matching units attached. Converting a number to another unit rounds to within ((1+ec)(1+u)-1) relative (ec: accuracy of the factor) plus eta; there and back is accurate to ((1+ec)^2(1+u)^2-1) relative plus a few eta; conversion never swaps two numbers nor changes a sign; between equal units the bits do not change, and between units whose ratio is a power of two conversion is exact and reversible. Converting spherical, cylindrical and plane polar quantities in any units (degrees, kpc ...) to Cartesian succeeds, gives lengths in the unit of the radius, and costs at most r times the conversion errors of the angles on top of the error in radian. Sums and differences of positions of any classes, and comparisons with a Cartesian left operand, in one unit are those of the plain numbers bit for bit; the sum of Cartesian 3-D positions in different units comes in the units of the first operand, and each component is the exact sum to within u of itself plus (1+u) times the conversion error of the second operand plus eta. Calling an operator of any class (composites and sequences of any length included) on a position, with or without a time, or a FourVector, inverting it, and norms, multiples, quotients, sums and differences of FourVectors and their interval are likewise those of the plain numbers bit for bit when everything is in one coherent system of units.", "quantifier": "all formats, elementary-function libraries, conversion-factor routines of accuracy ec, vectors, units, operators, target classes and keyword arguments", "why_tests_cant": "The claims range over all floating-point values and all pairs of units; tests check some values in kpc and degrees.", "anchors": ["src/coordinax/_src/vectors/transform/d3.py:represent_as", "src/coordinax/_src/vectors/transform/d2.py:represent_as", "src/coordinax/_src/vectors/base/base_pos.py:AbstractPos", "src/coordinax/_src/vectors/d3/cartesian.py:CartesianPos3D", "src/coordinax/_src/operators/base.py:AbstractOperator"]}
