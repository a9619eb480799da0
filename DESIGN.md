# Formal model of coordinax in Rocq (Coq 8.16.1)

`properties.jsonl` lists the properties, `MANIFEST.json` the theorems for each, this file what is
trusted, what is modelled, and how each property is proved. Theorems named `Cxx_…` are in
`rocq/theories/Prop*.v`; everything they need to be *read* is in the model files (column "model" below) and
the specification files `Spec.v`, `SpecVel.v`, `SpecOp.v`, `SpecFrame.v`; all other files are proofs.

## Trusted base

* Coq's kernel (8.16.1).
* The standard-library axioms `Print Assumptions` lists. Only four occur, all from the standard library
  (the real numbers, Coquelicot's analysis and Flocq's rounding use them; neither library adds an axiom):
  `ClassicalDedekindReals.sig_forall_dec`, `ClassicalDedekindReals.sig_not_dec`,
  `FunctionalExtensionality.functional_extensionality_dep`, `Classical_Prop.classic`.
  The list **for each theorem** is in `ASSUMPTIONS.md` (generated by `tools/assumptions.py`; the build
  prints it too, each theorem is followed by `Print Assumptions`). No axiom of our own, no functor, no module
  type, no switched-off check, no plugin.
* The reading of the source. Every definition of a model file cites the file and lines it models and says
  where it simplifies.
* The reading of the libraries below coordinax, which are not in /repo and were not run:
  JAX (index clamping and slices of `__getitem__`, broadcasting, `vmap`'s rank rule, JVP rule of every
  primitive, dead-code removal of unused `eqx.error_if` results under `jit`), unxt (unit conversion by an exact factor,
  physical-dimension checks, powers of units, `unit_system` lookups), plum (overload resolution by subtyping,
  precedence, `convert`), jaxtyping (shape annotations deciding an overload), equinox (field converters run before
  `__check_init__`; modules frozen), dataclassish (`replace` re-runs the constructor), astropy (representation
  constructors; physical-type names), scipy's `Rotation` (it denotes an orthogonal 3x3 matrix, Euler composition).
  Each such rule is an explicit definition in the model, next to the code that uses it.

## Modelling decisions (what the model is and is not)

* **Numbers.** The code computes with JAX floats. The model computes with exact reals plus one
  "not finite" value: `ext = option R`, `None` stands for NaN or an infinity. Division by zero,
  `acos` outside [-1,1], square roots of negatives give `None`; arithmetic is strict in `None`; comparisons with
  `None` are false (as for NaN). So most theorems are about the formulas, not about float error. **Floating point** is
  the subject of C59–C61 (position conversions), C65 (arithmetic), C67 (operators), C74 (velocities) and C76 (the ICRS <-> Galactocentric frame operators): `Float.v` gives a third instance of the number class (IEEE binary formats of any usual precision, round to nearest even,
  gradual underflow, overflow; rounding operator from Flocq; an arbitrary mathematical library with stated range and accuracy) and the *same*
  conversion definitions are run on it. Not modelled even there: signed zeros, the difference between NaN and infinity, rounding of
  unit-conversion factors, XLA's fused or reordered operations.
* **Automatic differentiation.** `jax.jacfwd` is modelled by running *the same* polymorphic conversion
  code on dual numbers (`dual`, `Num.v`) with JAX's JVP rule of each primitive. All conversion code is polymorphic in a class of
  number operations, so positions and duals run literally the same definitions. That the result is the true derivative is
  *proved* (against Coquelicot's `is_derive`), not assumed.
* **Units.** In the geometric files a quantity is its physical magnitude (SI; angles in radians). Dimension errors
  the conversion code can produce (a Parallax used as a length) are modelled by kinds. The unit bookkeeping
  of the code itself (`uconvert`, unit systems, arithmetic across units) is modelled with explicit units in `Units.v`; C57, C58 (conversions), C64, C71 (arithmetic), C66, C69 (operators), C68 (frames) and C70 (FourVectors)
  remove the abstraction: the same code run on unit-carrying numbers gives the same physical result for every choice of units.
* **Errors.** Python exceptions are `Raise err`; `IrreversibleDimensionChange` is a flag on `Ok`.
  Range checks (`eqx.error_if` whose result is discarded) fire only outside tracing: the model has a mode
  `Eager`/`Traced`; in `Traced` mode the range checks do nothing (their result is unused and removed by JAX). C43 relates the modes.
* **Dispatch.** plum's multiple dispatch of `represent_as` is modelled by the table of registered signatures and plum's
  resolution algorithm (`Transform.v`); overloads that re-dispatch run with fuel, and theorems hold for all large enough
  fuel (C09 bounds it); infinite recursion is "raises `ERecursion` for every fuel".
* **Batches.** The conversion code is element-wise; the geometric files treat one element. `Batch.v` models the array-level code
  (`vmap`, flattening, broadcasting) and C47 proves it is the element-wise code; C54 (operators), C72 (arithmetic) and C73 (FourVectors) do the same for the rest; `Shapes.v`, `Arrays.v` model shapes, indexing, reshaping.
* **Not modelled**: the XLA compiler, dtype handling, hashing, string representations and pretty printing,
  pytree registration, gala objects, deprecation shims, jaxtyping/beartype runtime type checks of field annotations
  (except where they decide an overload), `_coordinax_space_frames/register_gala` style optional interops.

## Per property

| id | model | proof |
|----|-------|-------|
| C01, C04 | `Vectors.v` (classes, converters, checks), `Transform.v` (overload table + bodies) vs `Spec.denotes` (textbook coordinate formulas) | one exact-result lemma per overload (`Pos3D`, `Pos3DThm`), composed along the dispatch path; coordinates determined by the point (`RoundTrip`) |
| C02, C03 | same, lower dimensions | `PosLow`, `Embed` |
| C05, C06 | constructors with checks and converters | `Range`, `PosGlue`; wrapping by the integer part |
| C07, C08 | `from_` overloads | `FromThm`: trigonometric cases; exact domain of success |
| C09, C10 | overload table + resolution | `Dispatch`: case analysis over the finite class set, induction on fuel for divergence |
| C11–C15 | `Arith.v` | composition with C01 (`ArithThm`, `ArithThm2`) |
| C16–C18 | prolate overloads vs confocal-quadric spec | real algebra (`Prolate`, `ProlateThm`) |
| C19–C21 | dual-number Jacobian (`Vel.v`) vs derivative of the denoted curve (`SpecVel.v`, Coquelicot) | `DualThm`, `VelPush`, `VelThm`, `VelLow`, `VelProlate*`, `VelRound` |
| C22 | same, accelerations; the exact missing term and a counter-example | `AccThm` |
| C23, C24 | component maps, class tables | `VelMisc` |
| C25–C29 | `Operators.v` vs `SpecOp.v` (maps of events) | induction over pipes; linear algebra on R^3 (`Op*`) |
| C30 | `FourVec.v` | algebra |
| C31–C33 | `Frames.v` vs `SpecFrame.v` | frames are pipes of operators with the code's matrices; rotation-matrix algebra (`FrameThm`) |
| C34, C35 | `Distances.v` | monotone bijections (tan/atan, ln/10^x) |
| C36, C42 | `Units.v` | algebra on unit-carrying components (`UnitsThm`) |
| C37, C38 | `Shapes.v` | induction on shapes (`ShapesThm`); immutability: no operation changes an existing object |
| C39 | `Space.v` | finite maps (`SpaceThm`) |
| C40 | `Poincare.v` | algebra |
| C41, C45 | `Arrays.v` | lists, shapes |
| C43 | mode `Eager` vs `Traced` of every model | relational case analysis, induction over pipes (`PropTrace`) |
| C44 | `Transform.v`, `Arith.v` | homogeneity of every overload body under a scaling of lengths (`Scale`) |
| C46 | `Astropy.v` | exact results of both directions |
| C47 | `Batch.v` | C-order flattening, induction on shapes (`BatchThm`) |
| C48 | `Rotations.v` | matrix algebra, determinant, uniqueness of the rotation |
| C49 | `Funcs.v` | real analysis of each function |
| C50 | `Construct.v` | case analysis of the converters and `from_` overloads |
| C51 | `VelArith.v` (rules of the primitives), `Vel.v` | case analysis for the support table; linearity of the Jacobian product by induction on its columns (`VelLin.v`), Cauchy-Schwarz for speeds |
| C52 | `Normalize.v` | induction on rows; real algebra |
| C53 | `Normalize.v` | induction on the array |
| C54 | `BatchOps.v` | element-wise maps compose; the reads through broadcasting are onto (`align_onto`); induction on the operator tree; C25 and C29 for the meaning |
| C55 | `Fields.v` | dictionaries as association lists, lookup invariant under permutation; name tables against `component_names`; the name-based rules refine the positional model of `Vel.v` for every class pair and matrix |
| C56 | `PropAlgebra.v` | chains of the C01/C02/C19 conversion theorems with uniqueness of coordinates off the axis; arithmetic laws from C11-C13 and list lemmas (Minkowski by induction) |
| C57 | UQ.v, Rel.v, UQThm.v, PropUQ.v | the conversion code (polymorphic in the number type) is run on unit-carrying numbers; a logical relation indexed by physical dimension is preserved by every primitive, hence by every conversion (induction on the recursion depth) |
| C58 | UVel.v, UVelThm.v, PropUVel.v | the velocity code is written once for every number type (equal to Vel.v on plain numbers by reflexivity) and run on quantities wrapping dual numbers; two logical relations (units; scaling of tangents) composed through the Jacobian, then dimension algebra of the matrix product |
| C59 | Float.v, FloatThm.v, FloatConv.v, PropFloat.v | the conversion code of Transform.v run on a third number instance built on Flocq's rounding; rounded sqrt of rounded square is at least |z| (midpoint argument), monotone rounding, relative error lemmas |
| C60 | Float.v, FloatThm.v, PropFloat2.v | exactness of the IEEE remainder (Flocq), monotone rounding between representable end points, midpoint argument for the finding |
| C61 | Float.v, FloatThm.v, PropFloat3.v | relative and absolute rounding errors composed through the formulas; Lipschitz sine and cosine; exact-turn analysis of the wrapped atan2 |
| C62 | Prims.v, PropPrims.v | array model of Shapes.v/Arrays.v; broadcast composition (align), C-order positions, dictionary lemmas of Space |
| C63 | Prims.v, PropPrims.v | case analysis of the descriptor protocol; list membership |
| C64 | TreeArith.v, RelArith.v, PropUnitArith.v | TreeArith.v = the binary operations with the unit check of jax.tree.map, proved equal to Arith.v without units and 'equal or ValueError' with them; relational parametricity of Arith.v between unit-carrying and SI numbers; combined with C11-C15 |
| C65 | FloatArith.v, PropFloat4.v | Arith.v run on the Flocq instance of Float.v; rounding lemmas (relative error of sums, round_plus_neq_0, midpoints) |
| C66 | GOp.v, GOpThm.v, UOpThm.v, PropUnitOp.v | operators written once for every number type (proved equal to Operators.v on SI values), relational simulation between the instance with units and the SI one, induction on the operator |
| C67 | FloatOp.v, PropFloat5.v, PropFloat21 | GOp.v run on the Flocq instance of Float.v; induction on operators and on chains, rounding-error analysis |
| C68 | GFrame.v, UFrameThm.v, PropUnitFrame.v | GFrame.v = the operators for every number type, proved equal to Frames.v on SI values; a relation preserved by every arithmetic operation links the unit-carrying instance to SI, including the forward-mode Jacobian |
| C69 | GOpVel.v, UOpVel.v, PropUnitOpVel.v | GOpVel.v = op(p), op(q, p) for every number type, proved equal to Operators.v on SI values; simulation between the unit-carrying and SI instances including the forward-mode Jacobian of the translation, induction on the operator |
| C70 | GFour.v, PropUnitFour.v | simulation between the unit-carrying and the SI run of each operation, then the SI theorems of C30; arrays as a list of numbers with one unit; inherited operations modelled from the dispatch that AbstractPos gives a FourVector |
| C71 | GVelArith.v, PropUnitVel.v | unit check of jax.tree.map on Quantity leaves, then component-wise simulation between the unit-carrying and the SI run; conversion to Cartesian for norms from C58 |
| C72 | BatchArith.v, PropBatchArith.v | component lists with shapes; composition of broadcasts (align of align), least-shape property, induction on the components |
| C73 | BFour.v, PropBFour.v | FourVectors as (array of times, three component arrays, c); lemmas on broadcasting (a shape that fits, common broadcast of two fitting shapes), C72 for the positions, C41 for the arrays, C37 for flatten and T; the failing cases by counting axes |
| C74 | FVel.v (UVel.v's polymorphic velocity code on rounded (value, tangent) pairs), PropFloat6.v, PropFloat7.v, PropFloat8.v | exact symbolic Jacobian (products with 0 and 1 are exact), then forward error analysis with an approximation predicate closed under rounded products and sums |
| C75 | UDist.v (the distance classes on arrays with units), PropUDist.v | each conversion is shown to compute, per element, the SI function of Distances.v (C34); the rest follows element-wise |
| C76 | FFrame.v (the polymorphic operators of GFrame.v on floating-point numbers and rounded duals), SpecFFrame.v, FFrameThm.v, PropFloat9.v | error propagation through products of near-orthogonal matrices (each product of matrices within E, F of rotations is within 2E+2F+3EF+4u of the product), the exact affine form of C31-C33 for the comparison, the exactness of products with 0 and 1 for the Jacobian; the finding by the spacing of floating-point numbers |
| C77 | FFour, PropFloat10 | The position norm is known to three roundings (C65); its square, the square of ct and their difference add at most seven; the bound follows algebraically, and the causal character from it because the sign can change only within the bound. The finding is an explicit family of events, one per format. Simplification: units consistent, complex square root of a real number modelled as the real one on the right axis. |
| C78 | FVelArith, PropFloat11 | The generic operations of GVelArith.v/TreeArith.v on the floating-point numbers of Float.v; component-wise, with the rounding facts of C65; the norms are shown to be the same term as the norm of the position. |
| C79 | FDist, FDistThm, PropFloat12, PropFloat20 | error analysis: arctan is concave (relative errors do not grow), tan amplifies them at most fivefold up to pi/3, log and power by mean values; pi to nine digits from Machin's formula for the finding |
| C80 | FOpVel, PropFloat13 | the Jacobians of the conversion and of the translation are shown to be the identity matrix in rounded arithmetic, so the products are exact; induction over the pipe with the chain bound of C67 for every prefix |
| C81 | PropFloat14 | the computed cosine is within 5u+eta of z/d (radius accuracy of C59 and |z| <= r); |sqrt a - sqrt b| <= sqrt|a-b| and <= |a-b|/sqrt b turn it into the two sine bounds; then the error bounds of C61 |
| C82 | PropFloat15 | Sterbenz' lemma (Flocq) for the colatitude exchange on [45, 180] deg, one rounding elsewhere; spacing of the format near pi/2 for the pole; Lipschitz sine and cosine with C61 for Cartesian |
| C83 | PropFloat16 | length accuracy of two components, cosine of the polar angle within 5u+eta, sine bounds of C81; the plane case shares its arithmetic with C61 |
| C84 | PropFloat17 | rounding commutes with powers of two on normal numbers; every intermediate sum and root is 0 or normal on both scales |
| C85 | FNorm, PropFloat18 | induction on the summation tree; rounding commutes with powers of two (C84) |
| C86 | FUQ, PropFloat19, PropFloat21 | relational parametricity (Rel.v) between quantities and plain floats; error analysis of one rounded multiplication |

Nothing in the list is inexpressible. Where the code violates what a user would expect, the exact behaviour is a theorem and the
violated expectation is stated as a theorem with suffix `_refuted` (or `finding` in its name) next to the property.

## Findings (behaviour of the code proved here that a user would not expect)

* units: `v - w`, `v == w`, 1-D and 2-D `v + w` and velocity sums raise ValueError for unequal units (only 3-D `v + w` converts); hence
  2-D translations and boosts refuse positions in other units, a velocity boost in m/s refuses a velocity in km/s, and a polar position
  in degrees cannot be compared with a Cartesian one (C64, C66, C69, C70).
* positions: `CylindricalPos -> RadialPos` gives rho; parallax radial parts project wrongly or raise; a negative distance modulus is
  treated as a negative distance; default embeddings inconsistent; `TwoSpherePos` conversions recurse for ever;
  adding equal and opposite curvilinear positions gives NaN angles; curvilinear division divides angles.
* velocities: planar speeds always raise TypeError (`CartesianVel2D` defines no `norm`); `CartesianAcc*.norm(v, q)` raises TypeError; accelerations are converted with the Jacobian only (curvature term missing); converting a velocity *from* prolate coordinates always
  raises (vmap over the scalar `Delta`), LonCosLat -> prolate raises; batches of velocities at broadcast positions are
  paired in C order rather than broadcast, or raise.
* operators: `simplify` drops translations smaller than 1e-8 *in their stored unit*, 2-D translations are compared wrongly,
  `simplify` of a pipe merges rotations in the wrong order; unary minus of a rotation is not its inverse; a rotation matrix need not be
  orthogonal; rotations reset the `c` of a four-vector; `Composite` inverses fail for radial/prolate parameters.
* frames/distances: range checks are lost under `jit`; `DistanceModulus` refuses any unit other than exactly `mag`.
* shapes: `flatten`/`T` of unbroadcast components, never-ending iteration over a scalar vector; ND vectors `mT`, `ravel`, scalar indexing;
  batches of different ranks that numpy broadcasts, (2,3) and (3,), cannot be added, subtracted or boosted (jax.lax does not promote
  ranks); a sum of batches may have no shape; vectors with components of different shapes, hence all batches of prolate positions,
  cannot be compared with themselves (C54, C72).
* space: duplicate check is dead code, alias lookup raises `KeyError`, minus of polar is not the physical negation.
* floating point: wrapping a tiny negative azimuth gives a full turn (not below it), short vectors get a NaN polar angle, components whose squares
  overflow (1 kpc in metres in binary32) a non-finite radius, polar angles near the axis are lost, and the polar velocity components of
  points whose squared coordinates underflow are NaN, as is the polar component of a spherical velocity where the computed polar angle is 0 (C74);
  positions closer to the Sun than d u / 16 (6 au in binary32) all get the same Galactocentric x (C76).
* arrays of FourVectors: conversion to an array fails while the times are still to be broadcast, `==` raises, indexing, `reshape` and
  iteration raise, `T` pairs the wrong times with the positions when times are given per column, `mT` raises when the times have fewer than two axes (C73).
* distances: a modulus in any unit but `mag` is refused by the constructor (`Distance.from_` of the same quantity works) (C75).
* arrays/interop: lengths unchecked, 1-D `from_` of a batch keeps the first element; non-Cartesian 3-D `.from_(array)` gives Cartesian; any 3-D
  class' `.from_` of another 3-D vector returns it unchanged; astropy conversion ignores the requested class; Poincaré coordinates lose azimuth and sign.

## Seeded bugs

`seeded/mutants_*.json` are realistic wrong edits of model definitions; `tools/mutate.py` applies each to a scratch copy, rebuilds,
replaces broken proofs by `Admitted` in the scratch copy only, and uses `Print Assumptions` to see which theorems rest on a broken proof.
`seeded/LOG.jsonl` has one line per attempt.
