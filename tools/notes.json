{
 "C03": {
  "note": "Embedding/projection proved for length-valued radial parts; findings: CylindricalPos->RadialPos gives rho, parallax radial parts project wrongly or raise, default embeddings are inconsistent."
 },
 "C07": {
  "note": "Proved for length-valued radii; finding: a negative distance modulus is treated as a negative distance."
 },
 "C09": {
  "note": "Finding: TwoSpherePos conversions recurse for ever (property states this exception)."
 },
 "C19": {
  "note": "Velocity conversion is the Jacobian push-forward (curve-derivative meaning) for every ordered pair of the plain 3-D, 2-D and 1-D classes, and from every plain 3-D class to prolate. Converting a velocity FROM prolate coordinates always raises (vmap over the scalar Delta): proved as findings."
 },
 "C22": {
  "note": "The code converts accelerations with the Jacobian only; theorems say exactly what the result means and that the curvature term is missing."
 },
 "C24": {
  "note": "LonCosLat is the stated exception (class chains collapse to LonLat)."
 },
 "C20": {
  "note": "Round trips for all plain classes; speeds in 1-D and 3-D; planar speeds always raise (finding); conversion to prolate is injective; the speed of a prolate velocity always raises (finding)."
 },
 "C40": {
  "note": "Findings: the reverse conversion loses azimuth and sign (stated exactly)."
 },
 "C41": {
  "note": "Findings: lengths unchecked; 1-D from_ of a batch keeps the first element."
 },
 "C43": {
  "note": "Relates the Eager and Traced modes of every model: traced results are equal whenever eager ones succeed; exactly the range checks are lost."
 },
 "C44": {
  "note": "Positions only (exact reals); units proper are C57/C58."
 },
 "C45": {
  "note": "Findings on mT, ravel and scalar indexing of N-dimensional vectors are theorems."
 },
 "C46": {
  "note": "astropy's constructors are modelled from their documentation. Finding: the requested class is ignored."
 },
 "C47": {
  "note": "Findings: batched velocities at broadcast positions are paired in C order or raise."
 },
 "C48": {
  "note": "Finding: unary minus of a rotation is not its inverse; rotation matrices are not checked for orthogonality."
 },
 "C51": {
  "note": "Finding: the support table of the primitives is proved exactly, including the operations that raise."
 },
 "C53": {
  "note": "Eager mode; the traced mode is C43."
 },
 "C56": {
  "note": "Laws hold off the axes/poles where coordinates are unique; exceptions are stated in the theorems."
 },
 "C57": {
  "note": "Positions; removes the SI abstraction of C01-C18 for every choice of units."
 },
 "C58": {
  "note": "Velocities and accelerations; removes the SI abstraction of C19-C22."
 },
 "C59": {
  "note": "IEEE formats through Flocq; the mathematical library is any one meeting a stated accuracy. Signed zeros and NaN/inf distinction not modelled."
 },
 "C60": {
  "note": "Same number model as C59. Finding: wrapping a tiny negative angle gives exactly one full turn."
 },
 "C61": {
  "note": "Same number model as C59."
 },
 "C64": {
  "note": "Exact reals with units; rounding is C65."
 },
 "C65": {
  "note": "Cartesian classes; same number model as C59."
 },
 "C66": {
  "note": "Same operator code at two number instances, GOp.v proved equal to Operators.v at SI."
 },
 "C67": {
  "note": "Cartesian vectors; same number model as C59."
 },
 "C68": {
  "note": "Frame code at two number instances, GFrame.v proved equal to Frames.v at SI. Euler composition of scipy is a definition in the model."
 },
 "C69": {
  "note": "Operators on (position, velocity) pairs with unit-carrying coordinates, related to their SI values by a parametricity argument over the whole call loop; unit of the result velocity stated exactly for Cartesian cases."
 },
 "C70": {
  "note": "FourVector operations on unit-carrying numbers, related to the SI model; multiplication, equality and mixed addition are proved to raise (findings)."
 },
 "C77": {
  "note": "Hypotheses: events in range (squares neither overflow nor underflow). C77_case meets them. The complex square root of XLA is modelled as the rounded real square root on the right axis."
 },
 "C78": {
  "note": "C78_case meets the hypotheses of the speed bound. Norms of velocities in other classes go through the conversion to Cartesian velocities (C74)."
 },
 "C79": {
  "note": "One array element. The library is a parameter; C79 assumes its accuracy only where the result is a normal number, and the correctly rounded library is shown to qualify. tan near pi/2 has no bounded condition number, so the length round trip is stated from 1 AU on (1 AU is parallax pi/4); below, the finding shows that no such bound can hold."
 }
}