# Formal model of gggears: design

Subject: the Python sources under `/repo/src/gggears` (read as text, never executed here).
Tool: Coq 8.16.1. Files live in `rocq/theories`, logical root `Verif`.

## Modelling decisions

* **Numbers.** Python/NumPy floats are modelled by Coq's real numbers `R`. Rounding,
  overflow, NaN and signed zeros are not modelled. Where the Python divides by something
  that may be zero (NumPy would give NaN/inf) theorems carry an explicit non-zero
  hypothesis, or the model returns an error value.
* **Vectors.** `np.array([x,y,z])` is a record `vec`; 3x3 arrays are records `mat`.
  `scipy.spatial.transform.Rotation` is modelled by the matrices it documents
  (`from_euler` with lower-case axes is extrinsic, `from_rotvec` is Rodrigues' formula).
* **Arrays** of points/weights are Coq lists; indexes are `nat`.
* **Exceptions** are values of the type `res A := Ok a | Err e`.
* **External solvers** (`scipy.optimize.root`, `minimize`) are parameters of the model
  functions. Theorems quantify over the solver; where a claim needs an exact root this is
  an explicit hypothesis, and otherwise the claim holds for every solver output.
* **build123d / OCP** calls are not modelled, except the documented meaning of
  `Location`/`scale` as point maps in `apply_transform_part` (C61).
* **Objects** are records; mutation is modelled by state-passing functions. Where aliasing
  matters (shared NumPy arrays, closures capturing `self`) an explicit store is used.
* Every definition carries a comment citing the file and lines it models.
* Statement files (`Props*.v`) hold the property theorems. Specifications that the
  theorems use (`Spec*` definitions) are written without the model's helper functions.

## Trusted base

* The Coq 8.16.1 kernel.
* Axioms (all from Coq's standard library; the last section lists what `Print Assumptions` says for
  every property theorem): `ClassicalDedekindReals.sig_forall_dec`,
  `ClassicalDedekindReals.sig_not_dec`,
  `FunctionalExtensionality.functional_extensionality_dep`, and for some theorems
  `Classical_Prop.classic` (through the standard library's or Coquelicot's real analysis).
  No axiom is declared in this development.
* The correspondence between the Python text and the Gallina definitions is by reading; the
  per-definition citations are there to be checked.

## Properties: what is modelled and how it is proved

- **C01 Transform product is composition** — records for transforms; componentwise ring identity.
- **C02 Transform.invert undoes the transform only for unit scale or zero centre** — exact iff for invert, by evaluating at the origin.
- **C03 GearTransform product is composition for z-aligned right operands** — matrix algebra; commutation condition; refuting witness.
- **C04 GearTransformData product/inverse are not composition/inverse** — matrix algebra; refuting witness.
- **C05 GearTransform.invert undoes the transform for z-commuting orientation** — matrix algebra; refuting witness.
- **C06 affine_matrix represents the transform** — 4x4 application spelled out on coordinates.
- **C07 Transforms are similarities** — orthogonality hypothesis R R^T = I; inner products.
- **C08 Recipe evaluation is pure and idempotent** — recipes as association lists with constant or callable entries; induction on the list.
- **C09 Tooth parameter normalisation** — record model with floor; case analysis on sign.
- **C10 Every slice of a bevel gear shares the pitch cone apex** — slice transform model; field identity; reference line evaluated through the curve model; rounding bound.
- **C11 Cylindrical coordinates round trip** — atan2 model with its cos/sin lemmas.
- **C12 Spherical coordinates round trip** — same, with asin/acos-free spherical formulas.
- **C13 Gear polar transform round trip** — model of both directions with the three cone-angle cases.
- **C14 Angle between vectors** — atan2(|a x b|, a.b) with Lagrange's identity.
- **C15 De Casteljau equals Bernstein form** — lists of control points; induction on the polygon, Pascal rule.
- **C16 Bezier curves interpolate end points, stay in the control box, commute with affine maps and reverse with their points** — induction on the polygon through the de Casteljau form.
- **C17 Rational Bezier curve laws** — quotient of two Bezier curves.
- **C18 Bezier derivative functions are derivatives** — Coquelicot is_derive; induction.
- **C19 Point and weight sensitivities are derivatives** — Coquelicot is_derive in one coordinate.
- **C20 NURBS arc is an exact circular arc** — vector algebra over the half angle.
- **C21 Tensor product surface: both evaluation orders agree** — sum exchange.
- **C22 Quadratic interpolation helper misses its middle point** — direct computation, exact condition.
- **C23 Involute curve law** — trigonometric identities; is_derive for the normal.
- **C24 Spherical involute stays on its sphere** — trigonometric identities (nsatz/field).
- **C25 Cycloid rolling law** — trigonometric identities.
- **C26 Conic cycloid stays on its sphere** — trigonometric identities.
- **C27 Octoid stays on its sphere but ignores offsets** — trigonometric identities.
- **C28 Curve parameter maps** — np.interp modelled on lists; induction.
- **C29 Trimming a curve keeps the cut point** — state-passing model of Curve.
- **C30 Reversing a curve** — as C28/C29 plus table symmetry lemma.
- **C31 Curve arithmetic** — evaluation at the ends for any table.
- **C32 Straight line curves** — LineCurve model.
- **C33 Arc curves** — ArcCurve model with rotation matrix.
- **C34 Transforming arcs and lines** — equivariance of cross product and rotation.
- **C35 Mirrored and rotated curves** — mirror/rotation algebra.
- **C36 Evaluating a chain only touches active curves** — lists of lengths/active flags; searchsorted by induction.
- **C37 Chain parametrisation is proportional to length** — invariant of the cumulative sum.
- **C38 Chain trimming and cutting** — state-passing chain model.
- **C39 Chain list behaviour** — inductive nested chains.
- **C40 NURBS chain point array** — list concatenation/splitting lemmas.
- **C41 Cone angles from tooth numbers** — atan identities; refuting witnesses.
- **C42 Involute centre distance** — monotonicity of tan a - a gives uniqueness of the root.
- **C43 backlash_from_ax_distance is not the inverse of the mesh distance** — algebra.
- **C44 Mesh angle puts a tooth into a gap** — floor/frac arithmetic; tooth centres as the set angle + k*pitch.
- **C45 Meshed involute gears transmit uniform motion** — planar model of both flanks; string length balance.
- **C46 Adapted cycloid gears share their rolling circles and stay in contact** — rational arithmetic for the circles; closed form of the flank as two rolling rotations, derivative for the common normal; phase of calc_mesh_angle as for C43.
- **C47 Adapting cycloid radii forgets the mesh placement** — state machine.
- **C48 Bevel gear placement makes the cone apexes coincide** — Rodrigues rotation algebra; pitch point expressed in the frame (axis, target); phase by C44.
- **C49 Ring gear placed on a pinion lands on the wrong side** — sign analysis.
- **C50 Line of action is tangent to both base circles** — planar rotation algebra; the contact part identifies the lines of C78's conjugacy with the drawn ones.
- **C51 Reference circles** — inverse polar transform evaluated.
- **C52 Rack reference lines** — heap model with shared arrays.
- **C53 Tooth profile is periodic and continuous** — model of the profile assembly with solver outputs universally quantified.
- **C54 Closed profile really closes** — end point bookkeeping of the assembled chains.
- **C55 Gear boundary forms agree** — evaluation of both forms.
- **C56 Tooth thickness at the pitch circle** — involute at t = tan(alpha).
- **C57 Curve fit keeps its end points for every optimiser result** — list packing/unpacking lemmas.
- **C58 Optimiser gradients** — is_derive of the sum of squares.
- **C59 Surface patches tile the surface** — list slicing lemmas.
- **C60 Building teeth by doubling produces each tooth once** — loop invariant over the binary expansion.
- **C61 Solid placement agrees with curve placement** — Euler decomposition of rotation matrices.
- **C62 Building the boundary wire rotates the gear** — loop model over the mutated angle, induction on calls.
- **C63 Bevel build restores z_vals only on success** — state machine with a crash point.
- **C64 Gear placement invariants over call histories** — invariant by induction over histories.
- **C65 reset_location does not restore the construction placement** — state machine.
- **C66 Setters without effect** — state machine.
- **C67 Apex position report** — placement algebra.
- **C68 Face width report depends on position** — placement algebra.
- **C69 Crowning is centred only when module = 1 - 2 z_anchor** — algebra, exact condition.
- **C70 Helical conversion and herringbone symmetry** — algebra plus sorted-list lemmas.
- **C71 Helical mesh** — Rodrigues rotation algebra.
- **C72 Rack mesh** — floor/frac arithmetic for the phase; the contact is computed on the tangent of the base circle at the pressure angle, with both flanks perpendicular to it.
- **C73 Copies are not independent** — store model with captured owner.
- **C74 Negative tooth numbers** — sign analysis.
- **C75 Cone geometry** — record model of ConicData; trigonometric identities.
- **C76 gear.center += v moves every gear at the shared origin** — store model with shared arrays; separation invariant by induction over histories.
- **C77 Helical pinion in a helical ring gear** — tilt of Info.v composed with the tooth-line tangents of both gears; iff on the helix angles.
- **C78 Crowned gears overlap after mesh_to** — conjugate flank theorem of MeshConj.v applied section by section with shifted centres.
- **C79 Recalculation drops constructor settings** — record comparison after recalculation.
- **C80 Adapting a gear train pairwise spoils the earlier pair** — rational arithmetic on the two calls.
- **C81 Backlash on a cycloid ring gear removes clearance** — instance of the ring contact theorem of C46.
- **C82 Edges made from arcs and lines** — frame computation for from_2_point_center, chord lengths.
- **C83 Boundary wire has one profile copy per tooth** — closed form of the loop, periodicity.
- **C84 Side surface fit through intermediate sections** — residue zero entrywise; exchange of the two Bernstein sums; computed counterexample.
- **C85 Lines and short arcs are converted exactly** — half-angle substitution in the rational quadratic; monotonicity of atan.
- **C86 The tooth follows the reference curve** — cylindrical round trip (C11); arctan2 polar form of the chord.
- **C87 Meshing core gears** — mesh_to of core.Gear on explicit gear records; rolling condition from C44; Rodrigues rotation for bevel gears.
- **C88 Fillet arcs** — orthonormal frame of the arc through both points (arc_between), velocities by Coquelicot derivatives, trims by set_start_spec/set_end_spec; explicit right-angle corner as example.
- **C89 Tip and root fillets of the flank** — apply_fillet case by case on the arcs of C88; mirror symmetry of the sharp arc's half by its midpoint; velocities by Coquelicot derivatives.
- **C90 Tip reduction** — minimum over the crossings found as a specification; heights of the whole circle by the inverse polar round trip of C13.
- **C91 Reference profile with fillets and tip reduction** — corollary of C53 on the filleted flank; land arcs on circles about the axis from the arc's frame.
- **C92 The involute flank rolls on the rack** — the flank in the frame of its normal; contact condition reduced to one real function whose sign is a monotonicity argument; velocities by Coquelicot.
- **C93 Undercut** — rotation algebra for the path; the criterion from the contact position along the rack flank; solver for the corner is an oracle whose answer is assumed to solve its equation where said.
- **C94 Assembly of an undercut tooth** — chain surgery of C29/C54 on the two searches' answers; joined iff the two places are equal.
- **C95 Flanks of bevel gears lie on the sphere of the pitch cone** — distance theorems of C24/C26/C27 transported to the apex; sign analysis of the octoid's height for the cones where it fails; minimum of a list by induction; the base circle from the derivative of the involute, its side by the mean value theorem.
- **C96 The octoid flank rolls on the flat crown rack** — closed form of the flank point in the crown wheel's frame (foot of the perpendicular on the great circle); polynomial identities in sines and cosines; derivatives by Coquelicot.
- **C97 Lower limit of a flank** — case analysis of the two searches (arbitrary answers), chain surgery of C29, arc frames of C33, the plane/cone comparison by square roots.
- **C98 Default tooth generators** — midpoint and direction algebra; the arc by C33 about a rotated axis.
- **C99 Reported reference circles** — Report.v: radii_data_gen and its uses; the profile of an involute gear at a height composed from Teeth.v, Fillet.v, Profile.v. The arc transform of C34 for the composed transform of C12.
- **C100 Reported addendum and dedendum radius** — the profile's closing arcs measured (closing_arc either spans the two flank ends or keeps the nominal radius); spur gears by C105.
- **C101 Reported cone angles** — radii of C99/C100 divided by the scaled slant height, arcsin(sin).
- **C102 Face and centre locations** — the CAD placement theorem C61 for the composed transform; level of the outside circle from C51, strict monotonicity of cos.
- **C103 Setting the centre of the reference circles** — direct on the arc representation.
- **C104 Base circle and base angle** — C99's arc transform for the base radius; start of the involute from C23 and C42.
- **C105 Profile of a spur gear between root and tip circle** — RisingLem.v: chains whose pieces increase a measure (here the squared distance from the axis) stay usable under trimming, every intermediate point is reached; involute polar form; monotone flank angle.
- **C106 Gear outline does not cross itself** — OutlineProps.v: order of points by angle and radius along root arc, flank, tip arc and mirror image; teeth separated by whole pitches; spur flanks from C105.
- **C107 Meshed flanks come no closer than the requested gap** — Modelled: the flanks of C45 (`lower_flank`, `upper_flank`: `involute_circle` moved by the gear transform) of the gears that `ig_mesh_to` returns, continued below the base circle by the radial line. Proved (ApartProps.v): both flanks lie on opposite sides of the common rack line through the facing points (`reach_le`: u cos(u-t) - sin(u-t) <= t), with equality only at the facing points; the distance bound is the Cauchy-Schwarz inequality against the contact normal. Only external pairs; the ring pair (one flank concave) is not covered, nor are positions whose facing point would lie below a base circle.
- **C108 Numerical derivatives and Hermite fits** — Modelled (Extra.v): `derivative_n`, `fit_hermite_cubic`, `fit_hermite_quadratic` with the solver's answer as a parameter, `quadratic_target` (the function handed to the solver). Proved (ExtraProps.v) against velocities defined by limits; the error formula is a polynomial identity.
- **C109 Arc functions and the arc class** — Modelled (Extra.v): both functions with their error cases. Proved (ExtraProps.v) by comparing with the arc curves of C33 through the frame of chord and axis; the sign of the offset of the centre decides the sense of rotation.
- **C110 Winding index of a curve** — Modelled (Extra.v): samples, differences and sum in Coquelicot's complex numbers; a sample on the centre is an error. Proved (IndexProps.v): partial fractions over the n-th roots of unity, sum of 1/(1-q w^k) = n/(1-q^n), by exchanging two finite sums. The exact value is for circles; for other curves only the symmetries are proved.
- **C111 The flank of a bevel gear runs from the root cone to the tip cone along the crown rack's trace, outwards all the way** — Modelled: the octoid flank of Teeth.v, trimmed and assembled by Profile.v, reported by Report.v (no new definitions). Proved (OctoidLem.v, OctoidFlankProps.v): closed forms of cone angle and polar angle of the flank; their derivatives have the signs of sin(alpha)sin(gamma) + w cos(gamma) with w = cos(alpha) sin(t sin gamma), hence strictly increasing exactly where the gear is not undercut; the two circle searches therefore have one answer each in that range, and C106, C100 and C101 apply. Solvers that answer the searches are exhibited for every admissible tooth.
- **C112 Sections of a bevel gear fit the blank the solid is cut from** — Modelled (Blank.v): sphere_data_at_z, cone_at_z, gen_ref_solid and gen_outside_ring with build123d solids as point sets. Proved (BlankProps.v): every piece of the outline is an arc about the axis or a copy of the flank, so it keeps distance and height (C112_heights); a bevel section lies on one sphere about the apex because scaling from the apex moves spheres to spheres; the blank's description follows from the positions of the outside circles; containment from the cone angles of C111. The blank of ring gears, the side surfaces and the cut itself are not modelled.
- **C113 Meshed bevel gears stay in contact and turn at the ratio of the tooth numbers** — Modelled: no new definitions (bevel mesh_to of Wrapper.v, octoid flank of Teeth.v, slices). Proved (BevelMeshProps.v): a section point seen from the apex; the phases of the two gears from C48; turning by half a turn about the pitch line carries the crown wheel's position at one gear to that at the other and its flank to the flank, so both gears touch the same plane at the same point; tangency and normal speeds from C96; one-sidedness from two derivatives of the distance to that plane; the rest from C111. Ring pairs are not treated.
- **C114 The fillets of a rack round its corners and leave the flank between them** — Modelled (RackFillet.v): the wire of edges, the choice of the vertex by any ascending order of y, bd.fillet as a relation (tangent arc with its ends on both edges), the Euler angles of the placing turn. Proved (RackFilletProps.v): the order of the vertices from the inequalities of the corners (ties are equal points); the tangent arc in a corner is unique; what the arcs leave by a circle estimate; contact from C72; the turn from C61's Euler lemma.
- **C115 The faces of a cylindrical gear fit together edge to edge** — Modelled (Faces.v): z_stacks, the sections as chains, the side surfaces, the kept patches, their turned copies, the covers' wires, the outside ring. Proved (FacesProps.v): the columns where a tooth begins and ends are turned copies of each other, for two layers from the sections, for fitted nets because the normal equations of least squares are linear and have only one solution (a polynomial with more roots than coefficients vanishes); then a counting argument over permutations: lefts = rights going round, bottoms + top cover = tops + bottom cover going up. FitProps.v solves the normal equations by induction over the columns (each new column is split into its projection on the earlier ones and a remainder), so a converged fit exists for every target.
- **C116 build_part makes a closed body of a cylindrical involute gear** — Modelled (Part.v): n_vert of the three build_part methods, from_refprofile, generate_gear_stacks, GearBuilder for cone angle 0 on the sections of an involute gear. Proved (PartProps.v): a trimmed involute tooth is a list of plain curves, so its outline satisfies what C115 asks of a section (active lands, head to tail, repeating after the pitch angle); without crowning all sections are moved copies of one, hence have the same knots; two layers need no fit, and then each wall is a control polygon and its raised copy, so points of lands keep the distance to the axis that C14/C57 give for the converted arc. The number of rows from the floor function; for HelicalGear with C70.
- **C117 The tooth surfaces of a bevel gear form an open tube that reaches past the blank** — Modelled (Cutter.v): GearBuilder for other cone angles up to the list of side faces, on the sections of an involute gear. Proved (CutterProps.v): the trimmed octoid tooth is one plain curve, so C115's pairing of left and right edges and of stacked rows applies; what remains are the lowest and the highest outline, whose edges follow each other around. Every section is its base section scaled about the apex and turned (place_apex), which gives the distances; the straight case is the two-row surface of a polygon and its scaled copy.
- **C118 Building a bevel gear leaves the gear as it was, unless it fails** — Modelled (Cutter.v): cutting_faces returns the gear as well. Proved by cases on the result, the retries by induction on the attempts; n_vert < 2 gives no sections, and stacking none raises.
- **C119 Of the pieces of a cut bevel blank, the gear is kept** — Modelled (Choose.v): the stable sort by a key, the two indices, the exception for fewer than two pieces; the pieces as point sets with the middle of their vertical extent. Proved by induction on the list for the sort; geometrically: the gear reaches the bottom plane (the waste not below the root cone), the waste reaches the pole of the outer sphere; for ring gears the other way around. The division of the shell by continuity (intermediate values) and explicit paths in spherical coordinates; the smaller volume by mirroring at the equator.
- **C120 Undercut relief and tip truncation leave a gear with enough teeth as it is** — Modelled in Fillet.v (apply_tip_reduction), Teeth.v (undercut) and Part.v. Proved (DefaultProps.v): the tooth's flank as polar angle over radius (C105), whose only zero is where the flanks meet; below the parameter 2 of the involute the angle stays below pi, so a point in the symmetry plane is that zero. The defaults by inv b - inv a <= sin b (1/cos b - 1/cos a) and bounds of cos 20 degrees from 4c^3 - 3c = 1/2. The part by C116.
- **C121 A gear with undercut relief has the flank left by the rack's corner, and a closed part** — Modelled in Teeth.v (undercut relief), Profile.v (trimming) and Part.v. Proved (ClimbLem.v, ReliefProps.v): the corner's path has the squared distance (rp-hd)^2 + (side + rp t)^2 from the axis, so it has one nearest pose and rises strictly from there; the crossing search's answer joins it to the involute, whose radius rises as well (C105); a chain of curves with rising radius is cut by the root and tip circles in one place each, whatever answer the searches give. The part by C116. Solvability: a corner that touches the involute does so where the rack's flank leaves the line of action; the touching pose is given in closed form. A corner that cuts in is ahead of the flank by x - sin x > 0 at the base circle and behind it at the pitch circle (intermediate values).
- **C122 Every default helical gear with ten or more teeth has a closed part with the expected flanks** — Modelled in Wrapper.v (HelicalGear), Teeth.v, Profile.v, Part.v, Convert.v. Proved (HelixPartProps.v): with T = tan(20 deg), c = cos(helix), w^2 = c^2 + T^2 the transverse pressure angle has cosine c/w and sine T/w, and bounds uniform in c and n show that the land at the tip (also after truncation) and the gap at the root are wider than the limits used by the code. Then C121 when the base circle is outside the root circle, C120 otherwise, and C116 for the part. The searches' answers as in C120 and C121, the fit's by C115_solvable.
- **C123 Cycloid gears have a closed part with hypocycloid feet and epicycloid tips** — Modelled in Cycloid.v (curves, parameters), CycPart.v (profile, sections, build_part), Faces.v, Convert.v. Proved (CycPartProps.v): the squared distance from the axis of both cycloids as a function of the rolling angle, which is monotonic up to half a turn; hence unique crossings with the circles, and trimming gives two legs. The skin is closed as in C116, because the sections of a gear without crowning are the same up to placement. For the defaults (rolling circles of half the pitch radius) the feet are radial and the tips nephroids; estimates uniform in n show that there is a land at the tip, also a tenth of a module above it.
- **C124 boundary_at_z() gives the outline at the height asked for only with continuous=False** — Modelled in Boundary.v on top of Profile.v (generate_boundary, generate_boundary_chain) and Report.v / CycPart.v (curve_gen_at_z). Proved (BoundaryProps.v): both forms unfold to TransformedCurve objects; the default one samples boundary_fun, which does not use profile.transform; the members of the chain form do (C55_member), have positive length if the tooth outline does not cross itself, and C106_simple gives that for spur gears. Heights by the orthogonality of the orientation.
- **C125 Outlines with undercut or cycloid flanks do not cross or touch themselves** — Modelled in Profile.v, Boundary.v, Report.v, CycPart.v. Proved (RadialProps.v): along the outline of one tooth a key increases (angle on the root circle, distance on the first flank, angle on the tip circle, falling distance on the second), so its points differ; two teeth can only meet where their angles differ by a multiple of the pitch, which the sectors exclude. For the path of the rack's corner the angle from the axis is lowest + atan(k w) - w, which first rises and then falls, so its least value is at one of its ends; for the nephroid the angle is bounded below by the radial foot. Not shown: fillets.
- **C126 A tooth generator handed to a gear belongs to that gear** — Modelled in Swap.v: generators, recipes and Gears as numbered objects in a heap, with references; Gear.__init__, gear_recipe_from_curve, swap_tooth_generator, copy, ZFunctionMixin.__call__ and curve_gen_at_z act on it. Proved (SwapProps.v): references stay inside the heap in all reachable states (induction over the program); a frame rule (the profile depends on the recipe and the generator in it only); from these, what each call changes and what it leaves. deepcopy is modelled as a new object with the same attributes, copied once if reached twice; functions are not copied.
- **C127 NURBSCurve.from_curve_chain keeps the curve** — Modelled in FromChain.v on top of Chain.v. Proved (FromChainProps.v): without switched-off inner chains the active curves of get_curves are the curves that evaluation travels along (induction over the tree); with C37_travel both chains have the same points.
- **C128 involute_func returns points of an involute** — Modelled in OldInvolute.v with arrays of the shape (3, 3) as matrices and the shapes of intermediate results followed through. Proved (OldInvoluteProps.v) by computing the nine entries and comparing with the involute, which is written down independently.
- **C129 update_inactive_continuity closes the gaps that inactive pieces leave** — Modelled in Collapse.v as the loop over the members, each evaluation seeing the members already rewritten. Proved (CollapseProps.v) by induction over the members still to come; the invariant is that the active members are those of the original, so that evaluation (C37_travel) gives what it gave at the start.
- **C130 The intersection searches solve for intersections and nothing else** — Modelled in Intersect.v: the five functions handed to `root` and `minimize`, over any function from parameters to points as curve. Proved (IntersectProps.v) against distance to a set of points defined as the least distance, with Lagrange's identity; monotonicity of squares for the methods that minimise.
- **C131 The arc that rounds a corner between two straight edges is the only one, with tangents of r·tan(φ/2)** — Model of C88 (Fillet.v), with the cost function of the method MINDISTANCE in Corner.v. Proved (CornerProps.v) in the frame of the first edge: the two coordinates of the equation give both distances, with the half-angle formulas; the arc comes from C88_tangent_arc. For the chain: four cases by the sides of the two places, reduced to the two edges, with exchanged places as a negative radius.

## Coverage of the source, file by file

"Modelled" means: there is a definition in the named theory whose comment cites the lines. "Not modelled" means no
definition follows that code; no theorem says anything about it.

| Source file | Modelled in | Not modelled |
|---|---|---|
| `defs.py` | `Vec.v`, `Num.v` (constants) | — |
| `function_generators.py` | `Coords.v` (18-44, 548-618), `Gen.v` (131-250, 621-679), `OldInvolute.v` (47-128), `Bezier.v` (308-545), `Extra.v` (263-305), `Interp.v` (NumPy's `interp`, `linspace`, `cumsum`, `searchsorted`) | `cycloid_line` 211-212 (its body is `pass`). `vectorize` only matters for array arguments; the model evaluates one parameter at a time |
| `curve.py` | `Curve.v` (single curves, lines, arcs, transformed curves), `Chain.v` (CurveChain, NURBSCurve), `Fillet.v` (641-664, 948-1043), `Convert.v` (783-945), `Teeth.v`, `Tooth.v`, `Gen.v` (curve classes 1318-1460, 1652-1736), `Profile.v` (1463-1527 on chains), `Extra.v` (757-780, 1046-1069), `FromChain.v` (1640-1649), `Collapse.v` (1614-1619), `Intersect.v` (698-740), `Corner.v` (978-982) | the numerical searches inside 698-754 (parameters of the model, see below) |
| `gearmath.py` | `GearMath.v` (all seven functions) | the numerical search inside `calc_involute_mesh_distance` (a parameter) |
| `gearteeth.py` | `Tooth.v` (planar involute), `Teeth.v` (all generators), `Cycloid.v` (565-628 in the plane) | — |
| `gggears_base_classes.py` | `Params.v` (14-44, 257-343, 439-482), `Transform.v` (47-254), `Report.v` (346-397), `RefLines.v` (400-436), `Teeth.v` (485-635), `Recipe.v` (638-652) | `RackToothParam` 306-324 (plain data, never used by the package) |
| `gggears_core.py` | `Coords.v` (26-112), `RefLines.v` (134-189), `Fillet.v` (192-339, 599-647), `Profile.v` (342-577, 650-794), `Params.v` (822-848), `Recipe.v` (851-947, 997-1003, 1030-1091), `Report.v` (980-981), `Blank.v` (983-1003), `Part.v` (430-432), `Boundary.v` (1005-1015), `Swap.v` (851-946, 1017-1028 as objects in memory) | none |
| `gggears_wrapper.py` | `Wrapper.v`, `World.v`, `Info.v`, `Report.v` (20-743), `Info.v` (746-1510), `Cycloid.v` (1513-1909), `Loa.v` (1934-2020), `Rack.v` (2023-2418), `RackFillet.v` (2147-2161, 2203-2215), `Part.v` (594-629, 1329-1353, 1758-1791), `CycPart.v` (1682-1791, cylindrical), `Cutter.v` (594-629) | `update_part`, `build_boundary_wire` (calls into build123d; of the last one the effect on the gear's angle is in `World.v`) |
| `gggears_convert.py` | `Convert.v` (the cost functions, their Jacobians, the interpolation conditions, the two-layer case, `get_patches`, `gearprofile_to_nurb`), `Faces.v` (75-166) | the optimiser itself (a parameter) |
| `gggears_build123d.py` | `Build.v` (59-135, 195-218, 379-418, 462-466, 507-581), `Blank.v` (137-193 for external teeth, 220-232), `Faces.v` (66-88, 195-218, 220-232, 289-315, 492-504), `Cutter.v` (89-105), `Choose.v` (109-127 and 184-188 apart from the split) | the split of solids by surfaces (111-113, 186) and everything else that creates or cuts CAD objects: `generate_cover` for cones, `curve_to_edges`, `fix_attempt`, `apply_animation`, the rest of `GearBuilder_old` |

Simplifications, per theory:

* `Curve.v`: a curve object is a value; sharing of one object by two owners and later changes of its attributes are
  not modelled. `np.interp` is used for ascending tables.
* `Chain.v`: value semantics as above; a NaN that Python would carry on is reported as an error; `searchsorted` is used
  for ascending arrays.
* `Profile.v`: where the code keeps one object in several places the result is written out for each place. A curve
  function that would raise inside a transformed curve gives the origin.
* `Fillet.v`, `Teeth.v`, `Tooth.v`, `Profile.v`, `GearMath.v`: the answers of SciPy's `root` and `minimize` are
  arbitrary parameters. Where a theorem needs a right answer, that is a hypothesis of the theorem.
  Of `calc_tangent_arc`'s MINDISTANCE branch the cost function is in `Corner.v`. `Teeth.v` leaves out cones with sin γ = 0 other than the plane.
* `World.v`: `SetCenter` stores a new array; `gearcore.cone` is a copy (as in the code).
* `Info.v`: the section angle function of a helical gear is kept beside the gear.
* `Report.v`: fillet radii are read from the input parameters when the profile is made. The spherical radius of a gear
  with cone angle 0 is infinite in Python; the model has a separate case.
* `Cycloid.v`: `adapt_cycloid_radii` is for two different gear objects.
* `Rack.v`: the outline without fillets; `Pos`, `GridLocations`, `extrude` are taken with their documented meaning.
* `Faces.v`: the profile of a section is a function of its height; a face is its control net, an edge its control polygon;
  sewing the faces is not modelled.
* `RackFillet.v`: one half of the outline; the other half is its mirror image. `bd.fillet` is a relation (see its header),
  and `Rotation(X, Y, Z, ordering)` hands its three angles to the kernel in the order of its arguments.
* `Loa.v`: the addendum radii of the two gears are parameters.
* `Convert.v`: NumPy arrays are functions of their indices; the optimiser's answer is arbitrary; a `TransformedCurve`
  whose target is a chain is not modelled.
* `Recipe.v`: the tooth generator inside the recipe is left out; the orientation array that `mesh_to` shares between two
  gears is copied.
* `Extra.v`: `curve_index` for one centre (an array of centres is the same formula per row).
* `Build.v`: build123d shapes are point sets with the documented meaning of the operations named in its header.
* `Part.v`: `build_part` for cone angle 0; the sections are made by the involute gear's own profile functions, the result is
  the list of faces of `Faces.v`.  The number of rows is modelled for all kinds of gears.
* `Choose.v`: `Shape.split` (111-113, 186) is not modelled; the theorems assume of its result what C117 says about the surfaces: they end
  outside the shell and stay between the root and the tip cone. Bounding boxes are exact suprema; OCC's may be a little larger.
* `Cutter.v`: `GearBuilder` for cone angles other than 0 up to line 105; `np.linspace` with a negative count raises in Python where the
  model stacks an empty list, both with ValueError and before `z_vals` is restored.

## What `Print Assumptions` lists for each property theorem

Abbreviations (all axioms of Coq's standard library): **D** = `ClassicalDedekindReals.sig_forall_dec`,
**N** = `ClassicalDedekindReals.sig_not_dec`, **F** = `FunctionalExtensionality.functional_extensionality_dep`,
**C** = `Classical_Prop.classic`.

* **Closed under the global context (no axioms)** (14): `C08_call_is_pure`, `C08_evaluation_fieldwise`, `C08_evaluation_idempotent`, `C08_make_callables_round_trip`, `C30_involution`, `C39_delitem_refuted`, `C39_reverse`, `C39_reverse_twice`, `C40_split_members`, `C55_float_teeth`, `C59_rows`, `C60_no_teeth`, `C94_single_curve`, `C124_float_teeth`

* **D** (19): `C08_make_callables_nested_refuted`, `C18_higher_orders_zero`, `C18_order_equal_to_point_count_fails`, `C33_length`, `C40_assign`, `C40_knots`, `C40_points`, `C40_read_split`, `C40_split_read`, `C57_fit_ends`, `C57_fit_pack_unpack`, `C57_fit_unpack_pack`, `C57_surface_pack_unpack`, `C57_surface_unpack_pack`, `C57_surface_unused`, `C59_members`, `C59_members_refuted`, `C59_tiling`, `C103_own_center`

* **D + F** (64): `C01_default_neutral`, `C01_product_assoc`, `C01_product_is_composition`, `C02_invert_exact_iff`, `C02_invert_refuted`, `C02_invert_round_trip`, `C06_affine_matrix`, `C07_apply_transform_meaning`, `C07_axes_are_images`, `C09_actual_teeth`, `C09_idempotent`, `C09_negation`, `C09_normalised`, `C15_cubic_written_out`, `C15_decasteljau_is_bernstein`, `C15_decasteljau_is_bernstein_weights`, `C16_affine_invariance`, `C16_bernstein_form`, `C16_convex_hull`, `C16_ends_at_last`, `C16_reversal`, `C16_starts_at_first`, `C17_convex_hull`, `C17_ends_at_last`, `C17_equal_weights`, `C17_starts_at_first`, `C17_weight_scale_invariance`, `C21_surface_corner_00`, `C21_surface_corner_11`, `C21_surface_orders_agree`, `C21_surface_orders_agree_positive`, `C22_quadratic_interp_ends`, `C22_quadratic_interp_iff`, `C22_quadratic_interp_middle`, `C22_quadratic_interp_refuted`, `C36_selects_active`, `C36_selects_positive`, `C37_proportional`, `C40_enforce`, `C40_enforce_closed`, `C40_enforce_idempotent`, `C40_read_split_unjoined_refuted`, `C49_nominal_positive`, `C52_global`, `C52_other_racks`, `C57_fit_curve_ends`, `C57_force_2D_ends`, `C57_surface_ends`, `C63_crash`, `C63_cylindrical`, `C63_late_failure`, `C63_retries`, `C63_success`, `C63_surfaces_range`, `C68_proportion`, `C83_caller_transform`, `C84_exact_fit`, `C84_varying_weights_refuted`, `C94_search`, `C115_edges`, `C115_solvable`, `C119_choice`, `C129_constant`, `C130_meet`

* **D + N + F** (229): `C03_product_is_composition_identity`, `C03_product_is_composition_iff`, `C03_product_is_composition_z_aligned`, `C03_product_refuted`, `C04_data_invert_refuted`, `C04_data_invert_round_trip`, `C04_data_product_iff`, `C04_data_product_refuted`, `C05_invert_exact_iff`, `C05_invert_refuted`, `C05_invert_z_aligned`, `C06_gear_affine_matrix`, `C07_apply_gear_transform_meaning`, `C07_axis_independent_of_angle`, `C07_gear_axes_are_images`, `C07_gear_transform_preserves_angles`, `C07_gear_transform_scales_distances`, `C07_transform_scales_distances`, `C09_pitch_angle_full_turn`, `C10_apex_fixed`, `C10_center_sphere`, `C10_slice_on_cone`, `C10_sphere_radius`, `C12_spherical_radius`, `C14_normalize`, `C14_projection`, `C23_angle_rotates`, `C23_mirror`, `C23_offset`, `C23_radius`, `C23_start`, `C23_string`, `C25_band`, `C25_mirror`, `C25_radius`, `C25_returns`, `C25_rolling`, `C28_distinct_samples_strict`, `C28_ends`, `C28_s2t_inverts_t2s`, `C28_strictly_monotone`, `C28_strictly_monotone_reversed`, `C28_t2s_inverts_s2t`, `C28_t2s_reversed_refuted`, `C28_table_is_length_share`, `C29_cut`, `C29_set_end_on`, `C29_set_start_and_end_on`, `C29_set_start_on`, `C29_trim_stays_on_curve`, `C30_nurb_reverse_ends`, `C30_nurb_reverse_full_range`, `C30_nurb_reverse_refreshed`, `C30_nurb_reverse_trimmed_refuted`, `C30_reverse_line_arc`, `C30_reverse_refreshed`, `C30_reverse_refreshed_extrapolated`, `C30_reverse_unrefreshed_refuted`, `C30_swaps_ends`, `C31_difference_ends`, `C31_product_ends`, `C31_quotient_ends`, `C31_quotient_ends_unit_range`, `C31_quotient_refuted`, `C31_sum_ends`, `C31_values`, `C32_arc_length`, `C32_ends`, `C32_evaluation`, `C32_length_is_distance`, `C32_trim_length`, `C33_negative_angle`, `C33_on_circle`, `C33_two_point_curvature_degenerate`, `C35_arc_pointwise`, `C35_curve_ends`, `C35_curve_values`, `C35_line_pointwise`, `C35_mirror_fixes`, `C35_mirror_involution`, `C35_mirror_isometry`, `C35_mirror_midpoint`, `C35_mirrored_arc`, `C35_mirrored_line`, `C35_rotate_OUT`, `C35_rotate_axis`, `C35_rotate_composes`, `C35_rotate_isometry`, `C35_rotate_zero`, `C35_rotated_arc`, `C36_no_active`, `C36_zero_length`, `C37_continuous`, `C37_ends`, `C37_inactive_subchain_refuted`, `C37_lines_continuous`, `C37_nesting`, `C37_travel`, `C38_both_ends_refuted`, `C38_cut`, `C38_flat_set_end`, `C38_flat_set_start`, `C38_preserve_slots`, `C38_preserve_slots_end`, `C38_set_end`, `C38_set_start`, `C38_start_and_end`, `C38_trim_to_nothing_refuted`, `C39_append`, `C39_del_inactive`, `C39_extend`, `C39_insert`, `C39_lerp_inactive`, `C39_pop`, `C39_reverse_ends`, `C39_reverse_points`, `C42_solver_value_exists`, `C45_never_interrupted`, `C45_no_contact`, `C46_adapt_shares_circles`, `C46_adapt_symmetric`, `C46_adapt_twice`, `C46_flank_points`, `C47_adapt_forgets_placement`, `C51_on_sphere`, `C52_lengths`, `C52_mirror_plane`, `C53_closed`, `C53_teeth`, `C55_forms`, `C55_forms_refuted`, `C55_int_teeth`, `C55_member`, `C55_start_differs`, `C55_trivial_transform`, `C59_face_count`, `C59_faces`, `C60_each_tooth_once`, `C60_solid`, `C61_mirrored_refuted`, `C63_success_after_crash_refuted`, `C67_correct_iff`, `C67_displaced_refuted`, `C67_reported_point`, `C67_unturned`, `C68_at_origin`, `C68_correct_iff`, `C68_reported_height`, `C68_sideways_refuted`, `C69_centred_iff`, `C69_full_thickness`, `C69_module_two_refuted`, `C70_helix_angle`, `C72_interference`, `C72_no_interference`, `C72_teeth`, `C74_cycloid`, `C74_cycloid_refuted`, `C74_involute_consistent`, `C74_negative_means_ring`, `C74_spur_ring`, `C75_apex_distance`, `C75_apex_height`, `C75_opening_angle`, `C79_ring_rim`, `C80_train`, `C80_train_refuted`, `C81_backlash_arc`, `C82_line`, `C82_trimmed_line_refuted`, `C83_copies`, `C83_full_turn`, `C83_partial_range_refuted`, `C87_new_gear`, `C91_trimmed_tip`, `C93_corner`, `C93_path`, `C93_start`, `C94_trim`, `C95_nearest`, `C96_rack_height`, `C96_rack_pitch_point`, `C97_cone_depth`, `C97_plane`, `C98_line`, `C98_rack_parameters_refuted`, `C101_right_iff`, `C103_set_center`, `C107_touch`, `C108_cubic_error`, `C108_line`, `C108_parabola_refuted`, `C108_quadratic_parabola`, `C108_second_derivative_refuted`, `C110_circle`, `C110_mirror`, `C110_own_centre`, `C110_reversed`, `C110_similarity`, `C114_contact`, `C114_flank_kept`, `C114_linked`, `C114_outline`, `C114_sides`, `C115_seam`, `C115_seam_refuted`, `C116_layers`, `C116_layers_cycloid`, `C116_layers_involute`, `C119_ring_blank`, `C120_constructor`, `C120_threshold`, `C124_chain_points`, `C124_default_height`, `C124_default_points`, `C124_section_height`, `C127_error`, `C127_points`, `C127_points_refuted`, `C129_members`, `C129_no_gap`, `C129_points`, `C130_line`, `C130_line_refuted`, `C130_line_sign`, `C130_meet_min`, `C130_plane`, `C130_plane_min`, `C131_straight`

* **D + N + C + F** (393): `C10_curve_apex_refuted`, `C10_curve_cone`, `C10_curve_cone_at_z`, `C10_curve_slice`, `C10_curve_slice_beyond`, `C11_cylindrical_radius`, `C11_cylindrical_round_trip`, `C11_cylindrical_round_trip_inv`, `C12_spherical_polar_angle`, `C12_spherical_round_trip`, `C12_spherical_round_trip_inv`, `C13_polar_base_circle`, `C13_polar_height`, `C13_polar_round_trip`, `C13_polar_round_trip_inv`, `C13_polar_round_trip_inv_cyl`, `C14_angle_cos_sin`, `C14_angle_range`, `C14_angle_rotation_invariant`, `C14_angle_scale_invariant`, `C14_angle_self`, `C14_angle_symmetric`, `C14_angle_to_plane`, `C14_rotate_vector_angle`, `C18_bezier_diff_is_nth_derivative`, `C18_nurbezier_diff_is_derivative`, `C18_order_equal_to_point_count_is_zero`, `C19_point_sensitivity_bezier`, `C19_point_sensitivity_nurbezier`, `C19_weight_sensitivity`, `C20_arc_exact`, `C23_string_is_normal`, `C24_flat_is_plane`, `C24_sphere_distance`, `C24_start`, `C24_string`, `C24_string_is_normal`, `C24_z_offset`, `C24_z_offset_refuted`, `C25_contact_is_normal`, `C26_contact_is_normal`, `C26_flat_case_raises`, `C26_rolling`, `C26_sphere_distance`, `C26_start`, `C27_mirror`, `C27_offsets_ignored`, `C27_sphere_distance`, `C27_start`, `C33_chord_bound`, `C33_point_center_angle`, `C33_radius_center_angle`, `C33_radius_center_angle_axis`, `C33_radius_center_angle_start_refuted`, `C33_trimmed_length_refuted`, `C33_two_point_center`, `C33_two_point_center_shape`, `C33_two_point_curvature`, `C34_arc`, `C34_gear_transform`, `C34_line`, `C34_reflection_refuted`, `C34_transform_data`, `C34_trimmed_arc_refuted`, `C34_trimmed_line`, `C34_trimmed_line_refuted`, `C37_arcs_continuous`, `C41_obtuse_refuted`, `C41_other_angle_refuted`, `C41_perpendicular`, `C42_distance_bound`, `C42_flank_crosses_pitch_circle`, `C42_ring_root_exists_unique`, `C42_root_exists_unique`, `C42_standard_external`, `C42_standard_ring`, `C42_thin_teeth_refuted`, `C42_tooth_base_angle`, `C42_working_pressure_angle`, `C43_half_backlash`, `C43_ring_same_arguments`, `C43_same_arguments`, `C44_ring_mesh`, `C44_tooth_meets_gap`, `C44_whole_pitches`, `C44_within_one_pitch`, `C45_external`, `C45_pinion_into_ring`, `C45_ring_over_pinion`, `C45_tilted_target_refuted`, `C46_adapted_contact`, `C46_external_contact`, `C46_pinion_into_ring`, `C46_ring_over_pinion`, `C47_documented_order`, `C47_documented_order_refuted`, `C48_apex_and_axes`, `C48_backlash_ignored`, `C48_obtuse_refuted`, `C48_one_flat`, `C48_parallel_target`, `C48_pitch_circles_touch`, `C48_ring_mesh`, `C48_tooth_meets_gap`, `C49_sides`, `C50_contact`, `C50_external`, `C50_external_error`, `C50_ring_error`, `C50_ring_first`, `C50_ring_second`, `C50_tilted_refuted`, `C51_conic`, `C51_conic_outside`, `C51_cylindrical`, `C53_boundary`, `C53_continuous`, `C53_profile`, `C54_closed`, `C54_outer_ring_broken`, `C54_outside_arc`, `C56_only_crossing`, `C56_thickness`, `C56_tooth_and_gap`, `C57_convert_ends`, `C57_profile_joined`, `C57_trimmed_refuted`, `C58_fast_half_gradient`, `C58_fit_gradient`, `C58_fit_partial_derivatives`, `C58_surface_gradient_iff`, `C58_surface_gradient_refuted`, `C58_surface_half_gradient`, `C59_kept_iff`, `C59_tooth_faces`, `C61_placement`, `C62_accumulates`, `C62_boundary_turns_gear`, `C62_fractional_teeth_refuted`, `C62_whole_teeth_harmless`, `C64_mesh_persists`, `C64_mesh_to_is_value_mesh`, `C64_only_receiver_changes`, `C64_orientation_stays_rotation`, `C64_reachable_conical`, `C64_reachable_cylindrical`, `C64_scale_stays_module`, `C64_untouched_gear`, `C65_reset_placement`, `C65_restores_construction_iff`, `C66_cone_setter_without_effect`, `C66_module_setter`, `C68_herringbone_refuted`, `C70_herringbone_symmetric`, `C70_normal_dimensions`, `C70_ring_twist_refuted`, `C70_sections`, `C71_new_gears`, `C71_tilt`, `C71_tooth_lines_agree`, `C72_conjugate`, `C72_helical_pair`, `C72_herringbone`, `C72_reference_line`, `C72_tooth_in_gap_iff`, `C72_total`, `C73_copy_follows_original`, `C73_independence_refuted`, `C73_recalculated_copy`, `C74_helical_ring`, `C74_negative_ring_refuted`, `C76_in_place_move`, `C76_origin_drifts`, `C77_documented_use_refuted`, `C77_parallel_iff`, `C77_ring_moved`, `C77_tangent_iff`, `C78_crowned_overlap_refuted`, `C78_section_gap`, `C79_herringbone_lost_refuted`, `C81_ring_backlash_refuted`, `C82_long_trimmed_arc`, `C82_trimmed_arc`, `C82_untrimmed_arc`, `C82_zero_arc_refuted`, `C85_arc`, `C85_line`, `C85_prolonged_refuted`, `C86_cone_along_curve`, `C86_follows_curve`, `C86_slice_shape`, `C87_axis_distance`, `C87_bevel_apex_iff`, `C87_bevel_ignores_other_place_refuted`, `C87_bevel_module_refuted`, `C87_bevel_unit_module`, `C87_center_sphere`, `C87_direction_not_normalised_refuted`, `C87_ring_mesh`, `C87_tooth_meets_gap`, `C88_at_index`, `C88_failed_search_refuted`, `C88_fillet_chain`, `C88_gap`, `C88_numerical_tangent`, `C88_tangent_arc`, `C88_tangent_end`, `C88_tangent_start`, `C89_branch`, `C89_failed_search_refuted`, `C89_root`, `C89_sharp_root`, `C89_sharp_tip`, `C89_tip`, `C90_above_dedendum_refuted`, `C90_circle`, `C90_circle_height`, `C90_gear_circles`, `C90_never_higher`, `C90_nothing_found`, `C90_off`, `C90_others`, `C90_reduction`, `C91_both_fillets`, `C91_fillets`, `C91_gear`, `C91_lands`, `C91_profile`, `C91_trimmed_root`, `C92_every_pose`, `C92_one_side`, `C92_tangent`, `C92_touches`, `C93_cone_path`, `C93_undercut_iff`, `C93_unneeded_refuted`, `C93_untouched`, `C94_default_limits_refuted`, `C94_octoid_plain`, `C94_octoid_refuted`, `C94_undercut_tooth`, `C95_base_radius`, `C95_cycloid_tooth`, `C95_involute_cone`, `C95_octoid_sphere`, `C95_octoid_sphere_refuted`, `C95_octoid_start`, `C96_law`, `C96_rack_depth_refuted`, `C96_tangent`, `C96_touches`, `C97_bevel_depth`, `C97_cone_connector_refuted`, `C97_cone_found`, `C97_cone_missed`, `C97_past_axis_refuted`, `C97_user_dedendum_refuted`, `C98_arc`, `C99_circles`, `C99_placement`, `C100_pointed`, `C100_radii`, `C100_spur`, `C100_tip_refuted`, `C101_angles`, `C102_agree`, `C102_center`, `C102_face`, `C102_face_position`, `C103_bevel_refuted`, `C104_circle`, `C104_start`, `C105_flank`, `C105_gear`, `C105_profile`, `C105_solvable`, `C106_boundary_curve`, `C106_gear`, `C106_once_round`, `C106_simple`, `C107_external`, `C107_mesh_to`, `C107_some_pair`, `C108_cubic`, `C108_quadratic`, `C109_center`, `C109_curvature`, `C109_curvature_ends`, `C109_half_circle`, `C109_other`, `C110_inside_outside`, `C110_near_refuted`, `C110_turns`, `C111_flank`, `C111_gear`, `C111_outline`, `C111_outward`, `C111_point`, `C111_profile`, `C111_report`, `C111_solvable`, `C112_blank`, `C112_blank_shape`, `C112_cut`, `C112_deep_root`, `C112_heights`, `C112_ring`, `C112_sphere`, `C113_apart`, `C113_contact`, `C113_never_interrupted`, `C113_play`, `C113_profiles`, `C114_placement`, `C115_closed`, `C116_closed`, `C116_involute`, `C116_kinds`, `C116_lands`, `C116_layers_helical`, `C116_layers_ring_refuted`, `C116_spur`, `C116_uncrowned`, `C116_walls`, `C117_default`, `C117_lines`, `C117_tube`, `C118_failed`, `C118_failed_refuted`, `C118_one_layer`, `C118_restored`, `C118_retries`, `C119_external`, `C119_ring`, `C119_ring_split`, `C120_default`, `C120_default_solvable`, `C120_default_untouched`, `C120_part`, `C120_profile`, `C120_tip`, `C120_tooth`, `C121_default`, `C121_default_solvable`, `C121_flank`, `C121_involute`, `C121_part`, `C121_solvable`, `C121_solvable_cut`, `C121_tooth`, `C122_default`, `C122_fits`, `C122_solvable`, `C123_closed`, `C123_default`, `C123_fits`, `C123_part`, `C123_solvable`, `C123_teeth`, `C123_uncrowned`, `C124_default_refuted`, `C124_default_same`, `C124_default_same_cycloid`, `C124_gear`, `C124_spur`, `C125_cycloid`, `C125_cycloid_gear`, `C125_default`, `C125_gear`, `C125_relief`, `C125_simple`, `C126_copy`, `C126_new`, `C126_new_cone`, `C126_new_own`, `C126_new_refuted`, `C126_plain_refuted`, `C126_swap_back`, `C126_swap_fresh`, `C126_swap_keeps`, `C126_swap_later`, `C126_swap_pitch`, `C128_list_refuted`, `C128_plane`, `C128_plane_refuted`, `C128_sphere_refuted`, `C131_arc`, `C131_chain`, `C131_fillet`, `C131_fillet_start`, `C131_min`, `C131_too_large_refuted`, `C131_unique`
