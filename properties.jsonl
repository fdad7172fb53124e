{"id": "C01", "title": "Transform product is composition", "statement": "For plain transforms, (A*B) applied to a point equals A applied to (B applied to the point); the product is associative and the default transform is neutral.", "quantifier": "every pair/triple of transforms (any centre, any 3x3 orientation, any scale) and every point", "why_tests_cant": "A test evaluates finitely many sample points; the claim is an identity over a continuum of inputs.", "anchors": ["src/gggears/gggears_base_classes.py: TransformData.__mul__, Transform.__mul__, apply_transform"]}
{"id": "C02", "title": "Transform.invert undoes the transform only for unit scale or zero centre", "statement": "For an orthogonal orientation and nonzero scale s, applying T.invert() after T (or before it) returns every point unchanged exactly when s*s=1 or the centre is the origin; otherwise T(T.invert()(p)) misses p by (1-s*s)*centre. The documented 'Invert the transformation' is therefore violated for scaled, displaced transforms.", "quantifier": "every transform with orthogonal orientation and nonzero scale, every point", "why_tests_cant": "A test evaluates finitely many sample points; the claim is an identity over a continuum of inputs.", "anchors": ["src/gggears/gggears_base_classes.py: TransformData.invert, Transform.invert"]}
{"id": "C03", "title": "GearTransform product is composition for z-aligned right operands", "statement": "(A*B)(p)=A(B(p)) holds for all p whenever B's orientation commutes with the rotation by A's angle about z (always the case for slice transforms made by gear recipes, whose orientation is the identity); for scale products different from 0 it holds for all p only then. It fails for some pairs with rotated orientations.", "quantifier": "every pair of gear transforms and every point", "why_tests_cant": "A test evaluates finitely many sample points; the claim is an identity over a continuum of inputs.", "anchors": ["src/gggears/gggears_base_classes.py: GearTransform.__mul__, apply_gear_transform"]}
{"id": "C04", "title": "GearTransformData product/inverse are not composition/inverse", "statement": "GearTransformData.__mul__ ignores its angle when it moves the other centre: it is composition exactly when additionally the other centre is fixed by the rotation. GearTransformData.invert fails to invert already for identity orientation.", "quantifier": "every pair of gear transform data records", "why_tests_cant": "A test evaluates finitely many sample points; the claim is an identity over a continuum of inputs.", "anchors": ["src/gggears/gggears_base_classes.py: GearTransformData.__mul__, GearTransformData.invert"]}
{"id": "C05", "title": "GearTransform.invert undoes the transform for z-commuting orientation", "statement": "GearTransform.invert()∘T = identity on all points exactly when the orientation commutes with the rotation by the gear angle; it is wrong for tilted gears with nonzero angle.", "quantifier": "every gear transform with orthogonal orientation and nonzero scale", "why_tests_cant": "A test evaluates finitely many sample points; the claim is an identity over a continuum of inputs.", "anchors": ["src/gggears/gggears_base_classes.py: GearTransform.invert"]}
{"id": "C06", "title": "affine_matrix represents the transform", "statement": "Multiplying the 4x4 affine_matrix with a homogeneous point gives the transformed point and keeps the last coordinate 1, for plain and gear transforms.", "quantifier": "every transform and every point", "why_tests_cant": "A test evaluates finitely many sample points; the claim is an identity over a continuum of inputs.", "anchors": ["src/gggears/gggears_base_classes.py: TransformData.affine_matrix, GearTransformData.affine_matrix"]}
{"id": "C07", "title": "Transforms are similarities", "statement": "With orthogonal orientation, plain and gear transforms multiply every distance by |scale| and preserve angles between displacement vectors; the gear transform's axis direction is independent of the gear angle.", "quantifier": "every transform with orthogonal orientation and every pair of points", "why_tests_cant": "A test evaluates finitely many sample points; the claim is an identity over a continuum of inputs.", "anchors": ["src/gggears/gggears_base_classes.py: apply_transform, apply_gear_transform, TransformData.x_axis, y_axis, z_axis"]}
{"id": "C08", "title": "Recipe evaluation is pure and idempotent", "statement": "Evaluating a recipe at z replaces exactly the callable fields by their value at z, keeps all other fields and the field order, leaves the recipe itself unchanged, and evaluating the result again at any z' gives the same result.", "quantifier": "every recipe (any set of constant and callable fields) and every z, z'", "why_tests_cant": "Fields may be arbitrary functions of z; tests can only try some.", "anchors": ["src/gggears/gggears_base_classes.py: make_callables, eval_callables, ZFunctionMixin.__call__"]}
{"id": "C09", "title": "Tooth parameter normalisation", "statement": "After construction the number of teeth is non-negative, inside_teeth was flipped iff the input was negative, constructing again from the result changes nothing; pitch_angle times tooth count is a full turn, and the actual tooth count is the largest integer not above teeth minus cutouts.", "quantifier": "every real tooth number, every cutout count, both inside flags", "why_tests_cant": "A test evaluates finitely many sample points; the claim is an identity over a continuum of inputs.", "anchors": ["src/gggears/gggears_base_classes.py: GearToothParam"]}
{"id": "C10", "title": "Every slice of a bevel gear shares the pitch cone apex", "statement": "With the default recipe, for every height z the slice's pitch circle (scaled and displaced by the slice transform) lies on one fixed cone: apex position is independent of z and the slice radius is rp - z*sin(gamma). The curve based recipe along the straight reference line gives the same slice transform, with the half cone angle rounded to the nearest 1e-6 rad (exact for multiples of 1e-6; otherwise the apex drifts slightly from slice to slice).", "quantifier": "every tooth number, cone angle and z", "why_tests_cant": "A test evaluates finitely many sample points; the claim is an identity over a continuum of inputs.", "anchors": ["src/gggears/gggears_core.py: default_gear_recipe, gear_recipe_from_curve", "src/gggears/gggears_wrapper.py: InvoluteGear.calc_params", "src/gggears/gggears_base_classes.py: ConicData"]}
{"id": "C11", "title": "Cylindrical coordinates round trip", "statement": "cylindrical->xyz after xyz->cylindrical is the identity for every point (including the axis); the other order is the identity for radius>0 and angle in (-pi,pi].", "quantifier": "every point and every centre", "why_tests_cant": "A test evaluates finitely many sample points; the claim is an identity over a continuum of inputs.", "anchors": ["src/gggears/function_generators.py: xyz_to_cylindrical, cylindrical_to_xyz"]}
{"id": "C12", "title": "Spherical coordinates round trip", "statement": "spherical->xyz after xyz->spherical is the identity for every point different from the centre, and the reported radius is the distance from the centre.", "quantifier": "every point different from the centre", "why_tests_cant": "A test evaluates finitely many sample points; the claim is an identity over a continuum of inputs.", "anchors": ["src/gggears/function_generators.py: xyz_to_spherical, spherical_to_xyz"]}
{"id": "C13", "title": "Gear polar transform round trip", "statement": "The gear polar transform followed by its inverse is the identity (points away from the cone apex), for zero, positive and negative cone angles; points on the base circle of a conic gear get their polar angle as angle, height 0 and one common out-coordinate (|gamma|-pi/2)*R, and the height coordinate is always R minus the distance from the apex.", "quantifier": "every cone angle in (-pi/2,pi/2), base radius and point off the apex", "why_tests_cant": "A test evaluates finitely many sample points; the claim is an identity over a continuum of inputs.", "anchors": ["src/gggears/gggears_core.py: GearPolarTransform"]}
{"id": "C14", "title": "Angle between vectors", "statement": "angle_between_vectors is symmetric, lies in [0,pi], is unchanged by positive scaling and by rotations of both vectors, and cos(angle)*|a||b| is the dot product.", "quantifier": "every pair of non-zero vectors", "why_tests_cant": "A test evaluates finitely many sample points; the claim is an identity over a continuum of inputs.", "anchors": ["src/gggears/function_generators.py: angle_between_vectors, angle_between_vector_and_plane, normalize, project"]}
{"id": "C15", "title": "De Casteljau equals Bernstein form", "statement": "bezierdc and bezier return the same point for every control polygon and parameter, also outside [0,1].", "quantifier": "every non-empty list of control points and every t", "why_tests_cant": "Unbounded number of control points and real parameters.", "anchors": ["src/gggears/function_generators.py: bezier, bezier_coeff, bezierdc"]}
{"id": "C16", "title": "Bezier curves interpolate end points, stay in the control box, commute with affine maps and reverse with their points", "statement": "bezier(0)=first point, bezier(1)=last point, each coordinate stays between min and max of the control points for t in [0,1], transforming the points transforms the curve, reversing the points maps t to 1-t.", "quantifier": "every control polygon, t and affine map", "why_tests_cant": "Unbounded polygons, real parameters.", "anchors": ["src/gggears/function_generators.py: bezierdc", "src/gggears/curve.py: NurbCurve.reverse, NurbCurve.apply_transform"]}
{"id": "C17", "title": "Rational Bezier curve laws", "statement": "nurbezier with positive weights interpolates its end points, stays in the control box, is unchanged by scaling all weights, and coincides with bezier for equal weights.", "quantifier": "every control polygon, positive weights, t in [0,1]", "why_tests_cant": "Unbounded polygons, real parameters.", "anchors": ["src/gggears/function_generators.py: nurbezier"]}
{"id": "C18", "title": "Bezier derivative functions are derivatives", "statement": "bezier_diff_t(t,points,n) is the n-th derivative of the Bezier curve; nurbezier_diff_t is the derivative of the rational curve; the order equal to the number of points does not give zero but fails.", "quantifier": "every control polygon, every order n, every t", "why_tests_cant": "A derivative is a limit statement.", "anchors": ["src/gggears/function_generators.py: bezier_diff_t, nurbezier_diff_t"]}
{"id": "C19", "title": "Point and weight sensitivities are derivatives", "statement": "bezier_diff_p / nurbezier_diff_points / nurbezier_diff_weights are the partial derivatives of the curve with respect to the control points and weights.", "quantifier": "every control polygon, weights with nonzero total, t, index", "why_tests_cant": "A derivative is a limit statement.", "anchors": ["src/gggears/function_generators.py: bezier_diff_p, nurbezier_diff_points, nurbezier_diff_weights"]}
{"id": "C20", "title": "NURBS arc is an exact circular arc", "statement": "The three points and weights of calc_nurbezier_arc give a curve all of whose points have the same distance from the centre as the end points, which starts at p0 and ends at p2.", "quantifier": "every pair of points at equal positive distance from the centre that are not antipodal, every t in [0,1]", "why_tests_cant": "A test evaluates finitely many sample points; the claim is an identity over a continuum of inputs.", "anchors": ["src/gggears/function_generators.py: calc_nurbezier_arc"]}
{"id": "C21", "title": "Tensor product surface: both evaluation orders agree", "statement": "nurbezier_surface and nurbezier_surface_2 return the same point, and its four corners are the corner control points.", "quantifier": "every rectangular control net with non-vanishing weight, every u,v", "why_tests_cant": "Unbounded nets, real parameters.", "anchors": ["src/gggears/function_generators.py: nurbezier_surface, nurbezier_surface_2"]}
{"id": "C22", "title": "Quadratic interpolation helper misses its middle point", "statement": "The curve through calc_quadratic_bezier_interp(p0,p1,p2) starts at p0 and ends at p2, but at t=1/2 it passes through p1 only if p1=(p0+p2)/4; it returns 2*p1-(p0+p2)/4.", "quantifier": "every triple of points", "why_tests_cant": "A test evaluates finitely many sample points; the claim is an identity over a continuum of inputs.", "anchors": ["src/gggears/function_generators.py: calc_quadratic_bezier_interp"]}
{"id": "C23", "title": "Involute curve law", "statement": "Every point of involute_circle is at distance r*sqrt(1+t^2) from the axis, at distance r*|t| from the tangent point at angle t+angle, the connecting line is tangent to the base circle and normal to the curve.", "quantifier": "every base radius, start angle, offset-free parameter t", "why_tests_cant": "A test evaluates finitely many sample points; the claim is an identity over a continuum of inputs.", "anchors": ["src/gggears/function_generators.py: involute_circle"]}
{"id": "C24", "title": "Spherical involute stays on its sphere", "statement": "Every point of involute_sphere (C != 0, no radial offset) has distance 1/|C| from the sphere centre and it starts on the base circle; for C=0 the z offset is silently dropped, unlike every C != 0.", "quantifier": "every r, C with |r*C|<=1, every t, angle, z offset", "why_tests_cant": "A test evaluates finitely many sample points; the claim is an identity over a continuum of inputs.", "anchors": ["src/gggears/function_generators.py: involute_sphere"]}
{"id": "C25", "title": "Cycloid rolling law", "statement": "Every point of cycloid_circle is at distance |rc| from the rolling circle's centre, which is at distance |rb+rc| from the axis; the curve starts on the base circle, returns to it after each full roll, and stays between rb and rb+2rc in radius.", "quantifier": "every base radius, rolling radius, start angle and t", "why_tests_cant": "A test evaluates finitely many sample points; the claim is an identity over a continuum of inputs.", "anchors": ["src/gggears/function_generators.py: cycloid_circle"]}
{"id": "C26", "title": "Conic cycloid stays on its sphere", "statement": "Every point of cycloid_cone (C != 0) has distance 1/|C| from the sphere centre; for C=0 the function raises instead of falling back to the plane cycloid.", "quantifier": "every rb, rc, C with |rb*C|,|rc*C|<=1, every t, angle", "why_tests_cant": "A test evaluates finitely many sample points; the claim is an identity over a continuum of inputs.", "anchors": ["src/gggears/function_generators.py: cycloid_cone"]}
{"id": "C27", "title": "Octoid stays on its sphere but ignores offsets", "statement": "Every point of octoid has distance equal to the sphere radius from the sphere centre; the v_offs and z_offs arguments have no effect on the result.", "quantifier": "every radius, sphere curvature, pressure angle, t", "why_tests_cant": "A test evaluates finitely many sample points; the claim is an identity over a continuum of inputs.", "anchors": ["src/gggears/function_generators.py: octoid"]}
{"id": "C28", "title": "Curve parameter maps", "statement": "For a curve with strictly increasing length table s2t maps 0 to t_0 and 1 to t_1, is strictly monotone on [0,1], and t2s is its exact inverse on [0,1] and [t_0,t_1].", "quantifier": "every length table and every s, t in range", "why_tests_cant": "A test evaluates finitely many sample points; the claim is an identity over a continuum of inputs.", "anchors": ["src/gggears/curve.py: Curve.s2t, Curve.t2s, Curve.update_lengths"]}
{"id": "C29", "title": "Trimming a curve keeps the cut point", "statement": "After set_start_on(s) the new start is the old point at s and the end is unchanged; dually for set_end_on; set_start_and_end_on does both; cut(s) gives two curves meeting at the old point at s and leaves the original untouched.", "quantifier": "every curve function, domain and cut parameter", "why_tests_cant": "A test evaluates finitely many sample points; the claim is an identity over a continuum of inputs.", "anchors": ["src/gggears/curve.py: Curve.set_start_on, set_end_on, set_start_and_end_on, cut"]}
{"id": "C30", "title": "Reversing a curve", "statement": "reverse() swaps end points and is an involution on the domain; after refreshing the length table the reversed curve at s equals the original at 1-s for every s; without the refresh this fails for curves with a non-symmetric table.", "quantifier": "every curve function, domain and s", "why_tests_cant": "A test evaluates finitely many sample points; the claim is an identity over a continuum of inputs.", "anchors": ["src/gggears/curve.py: Curve.reverse, NurbCurve.reverse"]}
{"id": "C31", "title": "Curve arithmetic", "statement": "Sum, difference and product of curves take the expected values at both ends; division by a constant does so only if the divided curve's own parameter range is [0,1].", "quantifier": "every pair of curves, every constant", "why_tests_cant": "A test evaluates finitely many sample points; the claim is an identity over a continuum of inputs.", "anchors": ["src/gggears/curve.py: Curve.__add__, __sub__, __mul__, __truediv__"]}
{"id": "C32", "title": "Straight line curves", "statement": "A LineCurve evaluated at s is the affine interpolation between its end points, its length is the distance between its ends (also after trimming), arc length from the start is s*length.", "quantifier": "every pair of end points, every s, every trim", "why_tests_cant": "A test evaluates finitely many sample points; the claim is an identity over a continuum of inputs.", "anchors": ["src/gggears/curve.py: LineCurve"]}
{"id": "C33", "title": "Arc curves", "statement": "Every point of an arc has distance radius from its centre; arcs built from two points and a centre start and end at these points; arcs built from two points and a curvature have radius 1/|curvature|; the reported length is radius*angle until the arc is trimmed and is wrong afterwards.", "quantifier": "every arc", "why_tests_cant": "A test evaluates finitely many sample points; the claim is an identity over a continuum of inputs.", "anchors": ["src/gggears/curve.py: ArcCurve"]}
{"id": "C34", "title": "Transforming arcs and lines", "statement": "Transforming an untrimmed arc or line by a similarity gives the image curve at every parameter; for trimmed ones the trim is lost.", "quantifier": "every arc, line, gear transform with rotation orientation and positive scale", "why_tests_cant": "A test evaluates finitely many sample points; the claim is an identity over a continuum of inputs.", "anchors": ["src/gggears/curve.py: ArcCurve.transform, LineCurve.transform, TransformedCurve"]}
{"id": "C35", "title": "Mirrored and rotated curves", "statement": "Mirroring is an involution, preserves distances, and fixes exactly the mirror plane; rotation by a then b about one axis is rotation by a+b; both act pointwise.", "quantifier": "every plane, axis, angle, curve, parameter", "why_tests_cant": "A test evaluates finitely many sample points; the claim is an identity over a continuum of inputs.", "anchors": ["src/gggears/curve.py: MirroredCurve, RotatedCurve"]}
{"id": "C36", "title": "Evaluating a chain only touches active curves", "statement": "For every real s, chain evaluation selects an existing active curve (never an inactive one) provided at least one is active and active lengths are positive; otherwise it fails with an index error.", "quantifier": "every list of curves with any activity pattern, every real s", "why_tests_cant": "Unbounded lists, activity patterns and parameters.", "anchors": ["src/gggears/curve.py: CurveChain.get_s_index, idx_active_min, idx_active_max"]}
{"id": "C37", "title": "Chain parametrisation is proportional to length", "statement": "For 0<=s<=1 the selected curve index and local parameter satisfy: lengths of earlier curves + local parameter * own length = s * total length; chain(0) is the first active curve's start and chain(1) the last active curve's end; a chain whose curves join is continuous at the joints.", "quantifier": "every list of curves, every s", "why_tests_cant": "Unbounded lists and parameters.", "anchors": ["src/gggears/curve.py: CurveChain.get_s_index, curve_list_eval, length_array, get_length_portions"]}
{"id": "C38", "title": "Chain trimming and cutting", "statement": "chain.set_start_on(s) makes the old point at s the new start and keeps the end, set_end_on dually, cut returns two chains meeting at the old point; set_start_and_end_on(s0,s1) reads s1 on the already trimmed chain, so its end is not the old point at s1.", "quantifier": "every chain, every cut parameter", "why_tests_cant": "Unbounded lists and parameters.", "anchors": ["src/gggears/curve.py: CurveChain.set_start_on, set_end_on, set_start_and_end_on, cut"]}
{"id": "C39", "title": "Chain list behaviour", "statement": "insert/append/extend/flatten/reverse act on the flattened curve sequence as on a list; deleting an element does not shorten the chain but leaves a non-curve behind.", "quantifier": "every nested chain and index", "why_tests_cant": "Unbounded nesting.", "anchors": ["src/gggears/curve.py: CurveChain.get_curves, __delitem__, __getitem__, __setitem__, append, extend, insert, reverse"]}
{"id": "C40", "title": "NURBS chain point array", "statement": "The flat point array of a NURBS chain lists every shared joint once; splitting it by knots and reading it back returns it unchanged; enforce_continuity makes neighbouring curves share their joint and touches no inner point.", "quantifier": "every list of NURBS curves, every flat array and knot vector", "why_tests_cant": "Unbounded lists.", "anchors": ["src/gggears/curve.py: NURBSCurve.points, knots, weights, from_points, enforce_continuity"]}
{"id": "C41", "title": "Cone angles from tooth numbers", "statement": "For perpendicular axes the two half cone angles are positive, sum to pi/2 and their sines are in the ratio of the tooth numbers; for other axis angles the ratio is wrong (equal tooth numbers give unequal cone angles at 60 degrees) and at 120 degrees the square root's argument is negative for all but very unequal tooth numbers.", "quantifier": "every pair of positive tooth numbers", "why_tests_cant": "A test evaluates finitely many sample points; the claim is an identity over a continuum of inputs.", "anchors": ["src/gggears/gearmath.py: cone_angle_from_teeth"]}
{"id": "C42", "title": "Involute centre distance", "statement": "For every exact root of the mesh equation, two standard involute gears of equal module without backlash are placed at the sum of their pitch radii; with profile shifts the working pressure angle a satisfies inv(a)=inv(alpha)+2 tan(alpha)(x1+x2)/(z1+z2) (plus a backlash term); the root exists and is unique; a pinion in a ring is placed at the difference of the pitch radii; teeth that are too thin to touch give a negative root whose sign is lost.", "quantifier": "every pair of tooth numbers, pressure angle in (0,pi/2), profile shifts", "why_tests_cant": "A test evaluates finitely many sample points; the claim is an identity over a continuum of inputs.", "anchors": ["src/gggears/gearmath.py: calc_involute_mesh_distance", "src/gggears/gearteeth.py: InvoluteTooth", "src/gggears/gggears_wrapper.py: InvoluteGear.mesh_to"]}
{"id": "C43", "title": "backlash_from_ax_distance is not the inverse of the mesh distance", "statement": "Feeding the computed distance of an external pair back returns half of the backlash, and only if the signs of both base angles are flipped; with the same arguments it returns another value; for a ring pair it returns minus half of the backlash.", "quantifier": "every pair of base radii, base angles, backlash", "why_tests_cant": "A test evaluates finitely many sample points; the claim is an identity over a continuum of inputs.", "anchors": ["src/gggears/gearmath.py: backlash_from_ax_distance, calc_involute_mesh_distance"]}
{"id": "C44", "title": "Mesh angle puts a tooth into a gap", "statement": "The returned angle makes some tooth centre of gear 1 coincide with a gap centre (external mesh) or a tooth centre (ring mesh) of gear 2 at the contact direction; rotating gear 2 by whole pitches does not change the result; the result lies within one pitch of the target angle.", "quantifier": "every pair of gear placements, tooth numbers, contact direction", "why_tests_cant": "A test evaluates finitely many sample points; the claim is an identity over a continuum of inputs.", "anchors": ["src/gggears/gearmath.py: calc_mesh_angle"]}
{"id": "C45", "title": "Meshed involute gears transmit uniform motion", "statement": "Two external involute gears placed by mesh_to with an exact root touch, for every rotation with the tooth-number ratio, at a common point of both flanks on the line tangent to both base circles, with common normal; the total clearance along that line is the requested backlash, divided between the two flanks by angle_bias. The same holds for a pinion in a ring and a ring over a pinion. A target direction that is not perpendicular to the axis is not projected and breaks this.", "quantifier": "every pair of tooth numbers, base radii in ratio, rotation angle, backlash, every bias", "why_tests_cant": "Continuous motion over infinitely many positions.", "anchors": ["src/gggears/gggears_wrapper.py: InvoluteGear.mesh_to", "src/gggears/gearmath.py: calc_involute_mesh_distance, calc_mesh_angle", "src/gggears/function_generators.py: involute_circle"]}
{"id": "C46", "title": "Adapted cycloid gears share their rolling circles and stay in contact", "statement": "After adapt_cycloid_radii the outer rolling circle of each gear is the inner one of the other (external mesh; for a ring mesh outer equals outer and inner equals inner) exactly if the modules agree. Gears with such circles placed by mesh_to keep, through the whole rolling motion, flanks that touch with a common normal on the rolling circle, up to a constant play fixed by backlash and crowning.", "quantifier": "every pair of tooth numbers, coefficients, placements, rotation; external and ring pairs", "why_tests_cant": "Continuous motion.", "anchors": ["src/gggears/gggears_wrapper.py: CycloidGear.adapt_cycloid_radii", "src/gggears/gearteeth.py: CycloidTooth", "src/gggears/function_generators.py: cycloid_circle"]}
{"id": "C47", "title": "Adapting cycloid radii forgets the mesh placement", "statement": "adapt_cycloid_radii resets centre, angle and orientation of the gear to the construction input, so a gear that was placed by mesh_to is moved back (also in the documented order of calls).", "quantifier": "every gear state reachable by mesh_to", "why_tests_cant": "A test runs a few fixed call sequences; the claim ranges over every sequence of calls.", "anchors": ["src/gggears/gggears_wrapper.py: CycloidGear.adapt_cycloid_radii, CycloidGear.calc_params, CycloidGear.mesh_to"]}
{"id": "C48", "title": "Bevel gear placement makes the cone apexes coincide", "statement": "After mesh_to, the apex of gear 1's pitch cone coincides with gear 2's, the angle between the axes is the sum (external) or difference (ring) of cone angles, and the orientation is again a rotation; matched cones touch at a point of both pitch circles in the target direction, where, for acute cones, tooth meets gap throughout the rolling motion. With an obtuse cone on gear 2 and an odd tooth number tooth meets tooth. Backlash arguments have no effect.", "quantifier": "every pair of cone angles, target direction not parallel to the axis, placements", "why_tests_cant": "A test evaluates finitely many sample points; the claim is an identity over a continuum of inputs.", "anchors": ["src/gggears/gearmath.py: calc_mesh_orientation, calc_bevel_gear_placement_vector", "src/gggears/gggears_wrapper.py: InvoluteGear.mesh_to"]}
{"id": "C49", "title": "Ring gear placed on a pinion lands on the wrong side", "statement": "When the moved gear is the ring, the involute mesh distance is negative and mesh_to places the ring opposite to target_dir, unlike the nominal mesh and the mesh of a pinion into a ring.", "quantifier": "every pair of base radii with the ring larger", "why_tests_cant": "A test evaluates finitely many sample points; the claim is an identity over a continuum of inputs.", "anchors": ["src/gggears/gearmath.py: calc_involute_mesh_distance, calc_nominal_mesh_distance", "src/gggears/gggears_wrapper.py: InvoluteGear.mesh_to"]}
{"id": "C50", "title": "Line of action is tangent to both base circles", "statement": "For gears in the xy plane both drawn lines of action touch both base circles and are mirror images in the line of centres. For external gears they end at the points of tangency; with a ring they start at the pinion's base circle and end on its addendum circle. For a pair of upright spur gears meshed by mesh_to, the facing flanks touch on exactly these lines, at right angles, in every rolling position. For centres that differ along z the lines are wrong.", "quantifier": "every pair of planar gear placements, base radii and addendum radii; every meshed upright spur pair, height, roll position and tooth", "why_tests_cant": "A test evaluates finitely many sample points; the claim is an identity over a continuum of inputs.", "anchors": ["src/gggears/gggears_wrapper.py: LineOfAction.LOA_gen"]}
{"id": "C51", "title": "Reference circles", "statement": "The addendum, pitch, dedendum and outside circles are concentric with the z axis; for cylindrical gears their radii are rp+h_a, rp, |rp-h_d|, rp-h_o with h_o limited so that the outside radius stays positive; for conic gears all four lie on the cone sphere.", "quantifier": "every tooth parameter, cone and limit heights", "why_tests_cant": "A test evaluates finitely many sample points; the claim is an identity over a continuum of inputs.", "anchors": ["src/gggears/gggears_core.py: generate_reference_circles"]}
{"id": "C52", "title": "Rack reference lines", "statement": "The addendum, dedendum and outside reference lines of a rack have coinciding end points (zero length), unlike the pitch line; moving the centre of a rack's reference lines modifies the library-wide UP and DOWN constants.", "quantifier": "every limit height, every centre", "why_tests_cant": "Aliasing through shared arrays depends on the call history.", "anchors": ["src/gggears/gggears_core.py: generate_reference_lines", "src/gggears/gggears_base_classes.py: RackRefLines.center"]}
{"id": "C53", "title": "Tooth profile is periodic and continuous", "statement": "Whatever the intersection solvers return, the generated one-tooth profile is continuous and its end is its start rotated by one pitch angle, so that the repeated boundary is continuous and, for an uncut gear, closed.", "quantifier": "every tooth flank curve, pitch angle and solver outcome", "why_tests_cant": "Solver outcomes and curves are arbitrary.", "anchors": ["src/gggears/gggears_core.py: trim_reference_profile, generate_reference_profile, generate_boundary"]}
{"id": "C54", "title": "Closed profile really closes", "statement": "profile_closed and tooth_profile_closed are closed chains; tooth_profile_closed_outer and tooth_profile_closed_ring, documented as closed chains, are not continuous. The outside arc starts and ends level with the two ends of the tooth's curve.", "quantifier": "every reference profile", "why_tests_cant": "A test evaluates finitely many sample points; the claim is an identity over a continuum of inputs.", "anchors": ["src/gggears/gggears_core.py: generate_profile_extensions, generate_profile_closed, GearRefProfileExtended"]}
{"id": "C55", "title": "Gear boundary forms agree", "statement": "The boundary as function and as chain of teeth describe the same curve only when the profile transform is trivial; the function form raises for non-integer tooth numbers.", "quantifier": "every profile and tooth parameter", "why_tests_cant": "A test evaluates finitely many sample points; the claim is an identity over a continuum of inputs.", "anchors": ["src/gggears/gggears_core.py: generate_boundary, generate_boundary_chain, Gear.boundary_at_z"]}
{"id": "C56", "title": "Tooth thickness at the pitch circle", "statement": "The generated flank of an involute tooth crosses the pitch circle at minus the pitch intersect angle, so the tooth is (pi/2 + 2 x tan(alpha) - backlash term) modules thick at the pitch circle.", "quantifier": "every tooth number, pressure angle, profile shift", "why_tests_cant": "A test evaluates finitely many sample points; the claim is an identity over a continuum of inputs.", "anchors": ["src/gggears/gearteeth.py: InvoluteTooth.generate_involute_curve", "src/gggears/gggears_wrapper.py: InvoluteGear.calc_params"]}
{"id": "C57", "title": "Curve fit keeps its end points for every optimiser result", "statement": "Packing and unpacking of the optimisation vector are inverse to each other; every vector yields control points whose first and last point are the target's and end weights 1, so the fitted curve always joins its neighbours, and a profile whose active curves run head to tail gives a NURBS chain without gaps.", "quantifier": "every number of points, every optimiser output", "why_tests_cant": "The optimiser output is arbitrary.", "anchors": ["src/gggears/curve.py: fit_nurb_points, fit_nurb_optim", "src/gggears/gggears_convert.py: GearToNurbs.solve_surface"]}
{"id": "C58", "title": "Optimiser gradients", "statement": "The gradient given to the optimiser in fit_nurb_points is the gradient of its cost; the one in solve_surface is half the gradient of its cost.", "quantifier": "every state vector and target", "why_tests_cant": "A derivative is a limit statement.", "anchors": ["src/gggears/curve.py: fit_nurb_points", "src/gggears/gggears_convert.py: GearToNurbs.solve_surface, solve_surface_fast"]}
{"id": "C59", "title": "Surface patches tile the surface", "statement": "The patches of a NURBS surface cover all control rows, consecutive patches share their boundary row, and all but the last three patches are the tooth faces.", "quantifier": "every knot vector and control net", "why_tests_cant": "Unbounded sizes.", "anchors": ["src/gggears/gggears_convert.py: NurbSurfaceData.get_patches", "src/gggears/gggears_build123d.py: GearBuilder.gen_side_surfaces"]}
{"id": "C60", "title": "Building teeth by doubling produces each tooth once", "statement": "Fusing doubled tooth groups covers every tooth index 0..n-1 exactly once.", "quantifier": "every number of teeth", "why_tests_cant": "Unbounded tooth numbers.", "anchors": ["src/gggears/gggears_build123d.py: GearBuilder_old"]}
{"id": "C61", "title": "Solid placement agrees with curve placement", "statement": "Scaling a solid and moving it by transform2Location is the same map as apply_gear_transform.", "quantifier": "every gear transform with rotation orientation, every point", "why_tests_cant": "A test evaluates finitely many sample points; the claim is an identity over a continuum of inputs.", "anchors": ["src/gggears/gggears_build123d.py: transform2Location, apply_transform_part"]}
{"id": "C62", "title": "Building the boundary wire rotates the gear", "statement": "Building a boundary wire adds teeth*pitch to the gear's own angle: a full turn for integer tooth numbers, a real rotation otherwise; it accumulates over calls.", "quantifier": "every gear, every number of calls", "why_tests_cant": "A test runs a few fixed call sequences; the claim ranges over every sequence of calls.", "anchors": ["src/gggears/gggears_build123d.py: generate_boundary_edges", "src/gggears/gggears_wrapper.py: InvoluteGear.build_boundary_wire"]}
{"id": "C63", "title": "Bevel build restores z_vals only on success", "statement": "Building a bevel gear extends the gear's z range in place and restores it on success; if surface generation fails the gear keeps the extended range and each retry extends it further.", "quantifier": "every z list, every crash point, every number of retries", "why_tests_cant": "Failure may occur anywhere in surface generation.", "anchors": ["src/gggears/gggears_build123d.py: GearBuilder.__init__"]}
{"id": "C64", "title": "Gear placement invariants over call histories", "statement": "Over any sequence of mesh_to, reset_location, centre/angle changes and boundary builds on a set of gears, each gear's orientation stays a rotation, its scale stays its module, and gears only change when they are the receiver.", "quantifier": "every finite call history", "why_tests_cant": "A test runs a few fixed call sequences; the claim ranges over every sequence of calls.", "anchors": ["src/gggears/gggears_wrapper.py: InvoluteGear.mesh_to, InvoluteGear.reset_location, GearInfoMixin"]}
{"id": "C65", "title": "reset_location does not restore the construction placement", "statement": "reset_location sets centre to the origin, orientation to the identity and angle to 0; it restores the construction placement exactly when that was the origin with angle 0.", "quantifier": "every gear and history", "why_tests_cant": "A test runs a few fixed call sequences; the claim ranges over every sequence of calls.", "anchors": ["src/gggears/gggears_wrapper.py: InvoluteGear.reset_location, CycloidGear.reset_location"]}
{"id": "C66", "title": "Setters without effect", "statement": "Assigning cone_angle does not change the reported cone angle; assigning module changes the reported module but not the gear's scale, so pitch radius and geometry disagree.", "quantifier": "every gear and assigned value", "why_tests_cant": "A test runs a few fixed call sequences; the claim ranges over every sequence of calls.", "anchors": ["src/gggears/gggears_wrapper.py: GearInfoMixin.cone_angle, GearInfoMixin.module"]}
{"id": "C67", "title": "Apex position report", "statement": "center_spherical equals the cone apex for a gear at the origin with identity orientation and applies the placement twice otherwise.", "quantifier": "every gear placement", "why_tests_cant": "A test evaluates finitely many sample points; the claim is an identity over a continuum of inputs.", "anchors": ["src/gggears/gggears_wrapper.py: GearInfoMixin.center_spherical"]}
{"id": "C68", "title": "Face width report depends on position", "statement": "z_height is the axial extent for a two-section gear at the origin, but for a displaced gear it also contains the centre offset; proportion_to_z(1) is the top only for two-section gears.", "quantifier": "every gear placement and z list", "why_tests_cant": "A test evaluates finitely many sample points; the claim is an identity over a continuum of inputs.", "anchors": ["src/gggears/gggears_wrapper.py: GearInfoMixin.z_height, GearInfoMixin.proportion_to_z"]}
{"id": "C69", "title": "Crowning is centred only when module = 1 - 2 z_anchor", "statement": "The section of full tooth thickness lies at height*(module/2 + z_anchor) over the bottom face; crowning is therefore symmetric about mid height exactly for crowning 0 or module = 1 - 2 z_anchor, and off-centre (or outside the face) for other modules and anchors.", "quantifier": "every height, module, anchor, crowning", "why_tests_cant": "A test evaluates finitely many sample points; the claim is an identity over a continuum of inputs.", "anchors": ["src/gggears/gggears_wrapper.py: InvoluteGear.calc_params"]}
{"id": "C70", "title": "Helical conversion and herringbone symmetry", "statement": "Helical gears keep normal-plane addendum, dedendum and tooth pitch; herringbone gears are mirror symmetric about mid height; the refined section list is sorted, keeps all original sections, and no section twists by a full turn or more. Helical ring gears do not get the refined list.", "quantifier": "every helix angle, tooth number, section list", "why_tests_cant": "A test evaluates finitely many sample points; the claim is an identity over a continuum of inputs.", "anchors": ["src/gggears/gggears_wrapper.py: HelicalGear.update_tooth_param, HelicalGear.__init__, HelicalRingGear.__init__"]}
{"id": "C71", "title": "Helical mesh", "statement": "HelicalGear.mesh_to tilts the axis by the sum of helix angles about the line of centres and leaves the contact direction in the gear's own frame unchanged, so for external pairs the tooth lines of both gears agree at the pitch point.", "quantifier": "every pair of helix angles and placements", "why_tests_cant": "A test evaluates finitely many sample points; the claim is an identity over a continuum of inputs.", "anchors": ["src/gggears/gggears_wrapper.py: HelicalGear.mesh_to"]}
{"id": "C72", "title": "Rack mesh", "statement": "InvoluteRack.mesh_to puts the rack's reference line at the pitch radius plus profile shift from the gear's axis, and centres rack teeth in gear gaps exactly for whole-number offsets; while gear and rack roll, flanks of matching gears and racks (spur, helical, herringbone) stay conjugate with constant play set by the two backlash values, and the rack interferes exactly when its tip passes the points of tangency.", "quantifier": "every gear placement, direction, offset, amount of rolling and height", "why_tests_cant": "A test evaluates finitely many sample points; the claim is an identity over a continuum of inputs.", "anchors": ["src/gggears/gggears_wrapper.py: InvoluteRack.mesh_to, InvoluteRack.build_part, HelicalRack"]}
{"id": "C73", "title": "Copies are not independent", "statement": "A copied gear keeps evaluating crowning with the original gear's input parameters: changing the original's parameters changes the copy's teeth.", "quantifier": "every gear and every later parameter change", "why_tests_cant": "A test runs a few fixed call sequences; the claim ranges over every sequence of calls.", "anchors": ["src/gggears/gggears_wrapper.py: InvoluteGear.calc_params, InvoluteGear.copy"]}
{"id": "C74", "title": "Negative tooth numbers", "statement": "Involute gears treat a negative tooth number as the ring gear with the absolute number (twice applied gives back the original); cycloid and helical ring gears mix the signs and end up inconsistent.", "quantifier": "every tooth number", "why_tests_cant": "A test evaluates finitely many sample points; the claim is an identity over a continuum of inputs.", "anchors": ["src/gggears/gggears_wrapper.py: InvoluteGear.__init__, CycloidGear.__init__, HelicalRingGear.update_tooth_param"]}
{"id": "C75", "title": "Cone geometry", "statement": "For a conic gear description the apex is at distance |spherical radius| from every point of the base circle, at height rp/tan(gamma) over the base centre, and the cone opening half angle seen from the apex is half the cone angle, for any placement with orthogonal orientation.", "quantifier": "every cone angle in (-pi,pi) except 0, base radius, placement", "why_tests_cant": "A test evaluates finitely many sample points; the claim is an identity over a continuum of inputs.", "anchors": ["src/gggears/gggears_base_classes.py: ConicData"]}
{"id": "C76", "title": "gear.center += v moves every gear at the shared origin", "statement": "Adding to gear.center in place changes the centre of exactly the gears that share the array: the gear itself, and, if its centre is the default or was set by reset_location, every other gear of that kind; later gears built without a centre and later resets start from the displaced origin.", "quantifier": "every call history and every displacement", "why_tests_cant": "A test runs a few fixed call sequences; the claim ranges over every sequence of calls.", "anchors": ["src/gggears/gggears_wrapper.py: GearInfoMixin.center, InvoluteGear.__init__, InvoluteGear.reset_location", "src/gggears/defs.py: ORIGIN"]}
{"id": "C77", "title": "Helical pinion in a helical ring gear", "statement": "HelicalGear.mesh_to tilts a pinion inside a helical ring gear by the sum of both helix angles: tooth lines touch and axes are parallel only for opposite helix angles, so the documented use with equal helix angles leaves crossing axes; moving the ring gear instead is right exactly for equal helix angles.", "quantifier": "every pair of helix angles and placements", "why_tests_cant": "A test evaluates finitely many sample points; the claim is an identity over a continuum of inputs.", "anchors": ["src/gggears/gggears_wrapper.py: HelicalGear.mesh_to, HelicalRingGear"]}
{"id": "C78", "title": "Crowned gears overlap after mesh_to", "statement": "mesh_to takes the tooth thickness at z = 0, where crowned teeth are thinned. At any other height the flank gap is backlash/2 minus the base-circle arcs by which the sections there are thicker; equal crowned gears meshed without backlash overlap at mid height by the whole crowning.", "quantifier": "every external spur pair, crowning, height, placement", "why_tests_cant": "A test evaluates finitely many sample points; the claim is an identity over a continuum of inputs.", "anchors": ["src/gggears/gggears_wrapper.py: InvoluteGear.mesh_to, InvoluteGear.angle_base, InvoluteGear.calc_params"]}
{"id": "C79", "title": "Recalculation drops constructor settings", "statement": "Calling calc_params() on an existing gear discards what the constructors of SpurRingGear and herringbone HelicalGear added: the outside limit goes back to -2 (unchanged only for outside_ring_coefficient 2) and a herringbone gear becomes single-helical above mid height.", "quantifier": "every parameter set", "why_tests_cant": "A test runs a few fixed call sequences; the claim ranges over every sequence of calls.", "anchors": ["src/gggears/gggears_wrapper.py: InvoluteGear.calc_params, SpurRingGear.__init__, HelicalGear.__init__"]}
{"id": "C80", "title": "Adapting a gear train pairwise spoils the earlier pair", "statement": "adapt_cycloid_radii called for gears (1,2) and then (2,3) of a train leaves pair (2,3) with matching rolling circles, but pair (1,2) only if gears 1 and 3 have the same inner rolling circle radius; with equal coefficients and different tooth numbers pair (1,2) is always spoilt.", "quantifier": "every train of three external cycloid gears", "why_tests_cant": "A test runs a few fixed call sequences; the claim ranges over every sequence of calls.", "anchors": ["src/gggears/gggears_wrapper.py: CycloidGear.adapt_cycloid_radii"]}
{"id": "C81", "title": "Backlash on a cycloid ring gear removes clearance", "statement": "backlash and crowning of a cycloid ring gear narrow the spaces instead of widening them: a pinion meshed into a ring gear built with positive backlash has teeth wider than the spaces, by twice the backlash, and the flanks overlap by a constant arc.", "quantifier": "every compatible pinion and ring pair and backlash", "why_tests_cant": "A test evaluates finitely many sample points; the claim is an identity over a continuum of inputs.", "anchors": ["src/gggears/gggears_wrapper.py: CycloidGear.calc_params, CycloidGear.mesh_to"]}
{"id": "C82", "title": "Edges made from arcs and lines", "statement": "Converting an arc curve to an edge keeps exactly its points for an untrimmed arc of up to a full turn, and for a trimmed, extended or reversed arc of less than half a turn. A trimmed arc of more than half a turn becomes the complementary arc of the circle (only the end points are right); an arc of angle 0 becomes a full circle; a trimmed line becomes the untrimmed segment.", "quantifier": "every radius, arc angle, centre, orientation and trimming", "why_tests_cant": "A test evaluates finitely many sample points; the claim is an identity over a continuum of inputs.", "anchors": ["src/gggears/gggears_build123d.py: arc_to_b123d, line_to_b123d", "src/gggears/curve.py: ArcCurve.from_2_point_center"]}
{"id": "C83", "title": "Boundary wire has one profile copy per tooth", "statement": "generate_boundary_edges over the full turn uses one copy of the profile per tooth, the i-th turned by i pitch angles from the given transform; the caller's transform is left turned by the number of copies times the pitch, which after a full turn moves points as before, but not after a partial range.", "quantifier": "every transform, tooth number, range", "why_tests_cant": "Unbounded tooth numbers.", "anchors": ["src/gggears/gggears_build123d.py: generate_boundary_edges"]}
{"id": "C84", "title": "Side surface fit through intermediate sections", "statement": "When the surface fit over more than two sections has no residue, the fitted surface passes exactly through every sampled section if the weights do not change from section to section; if the weights change, a fit without residue can still miss the sections, because control points are fitted without multiplying them by their weights.", "quantifier": "every number of sections, rows and control points, every optimiser result", "why_tests_cant": "A test evaluates finitely many sample points; the claim is an identity over a continuum of inputs.", "anchors": ["src/gggears/gggears_convert.py: GearToNurbs.solve_surface, generate_surface_points_sides"]}
{"id": "C85", "title": "Lines and short arcs are converted exactly", "statement": "convert_curve_nurbezier turns a line into a 2-point curve with the same points at the same parameters, and an arc with angle and used part below half a turn into a 3-point curve with exactly the points of the arc. An arc of less than half a turn prolonged beyond half a turn is converted to the other arc between its ends.", "quantifier": "every line, arc, trimming", "why_tests_cant": "A test evaluates finitely many sample points; the claim is an identity over a continuum of inputs.", "anchors": ["src/gggears/curve.py: convert_curve_nurbezier", "src/gggears/function_generators.py: calc_nurbezier_arc"]}
{"id": "C86", "title": "The tooth follows the reference curve", "statement": "With gear_recipe_from_curve, for every reference curve the slice at z carries the pitch point of the tooth exactly to the point of the curve at the scaled parameter; the slice is planar at the height of that point, its size is the curve radius over the pitch radius, and its cone opens along the chord of the curve (within the rounding); a curve of constant radius gives cone angle 0.", "quantifier": "every reference curve, tooth number, scaling function and z", "why_tests_cant": "A test evaluates finitely many sample points; the claim is an identity over a continuum of inputs.", "anchors": ["src/gggears/gggears_core.py: gear_recipe_from_curve, ref_curve_2_param"]}
{"id": "C87", "title": "Meshing core gears", "statement": "Gear.mesh_to for cylindrical gears makes the axes parallel and turns the gear so that its teeth point into the gaps of the other (ring meshes included); the axis distance is the sum (difference) of the pitch radii exactly when the direction has length 1 across the axis. For bevel gears the place ignores where the other gear is and both modules: the apexes meet for module 1 with the other gear at the origin, and never for two fresh gears of another common module. A new gear stands at the origin with the size of its module; center_sphere is the apex of its pitch cone, mirrored for negative cone angles.", "quantifier": "every pair of placed gears and every direction", "why_tests_cant": "A test runs a few fixed call sequences; the claim ranges over every sequence of calls.", "anchors": ["src/gggears/gggears_core.py: Gear.mesh_to", "src/gggears/gearmath.py: calc_mesh_angle, calc_bevel_gear_placement_vector"]}
{"id": "C88", "title": "Fillet arcs", "statement": "Where the two centres of a tangent arc search coincide, the arc built has the requested radius, starts on the first curve, ends on the second, turns by less than half a turn and continues the numerical direction of both; on lines and arcs that is the true tangent. A chain filleted this way stays joined and keeps its two ends; fillet_at_index works where the member of that index ends. The success flag of the search is not looked at: an unsuccessful search leaves a gap equal to the difference of the distances from the centre.", "quantifier": "every pair of curves, radius, place and search result", "why_tests_cant": "A test evaluates finitely many sample points; the claim is an identity over a continuum of inputs.", "anchors": ["src/gggears/curve.py: calc_tangent_arc, fillet_curve, CurveChain.fillet, CurveChain.fillet_at_locations"]}
{"id": "C89", "title": "Tip and root fillets of the flank", "statement": "Asked for a fillet, the flank is given an arc of exactly that radius: if an arc touching the addendum (dedendum) circle was found inside the half pitch, the flank stays joined, its new end lies on that circle and continues the circle's direction, and the other end is untouched; if not, half of an arc between the flank and its mirror image is used, which ends in the mirror plane at a right angle to it, so that two neighbouring flanks run smoothly into each other. The success of the last search is not looked at: a failed one can leave a gap in the flank.", "quantifier": "every flank, circle, radius, pitch and search result", "why_tests_cant": "A test evaluates finitely many sample points; the claim is an identity over a continuum of inputs.", "anchors": ["src/gggears/gggears_core.py: apply_fillet", "src/gggears/curve.py: calc_tangent_arc"]}
{"id": "C90", "title": "Tip reduction", "statement": "Tip reduction never raises the tip. If a point of the flank in the tooth's middle plane is found above the dedendum, the new addendum circle lies at least the requested amount below each of them, and no lower than needed; if none is found the tip stays. All points of the new circle are at that height, for cylindrical and for bevel gears, and the other circles are unchanged. Nothing keeps the new tip above the dedendum circle.", "quantifier": "every flank, cone angle, radius, reduction and search result", "why_tests_cant": "A test evaluates finitely many sample points; the claim is an identity over a continuum of inputs.", "anchors": ["src/gggears/gggears_core.py: apply_tip_reduction, generate_reference_profile"]}
{"id": "C91", "title": "Reference profile with fillets and tip reduction", "statement": "The reference profile made with fillets and tip reduction repeats after one pitch and is joined like the plain one (to 1e-10, exactly if both lands exist), carries the gear's transform, keeps the filleted flank unchanged when both fillets are on (the root fillet is put on the flank that has its tip fillet), and its tip and root lands lie on the circles through the flank's ends, which are the (reduced) addendum and the dedendum circle wherever the searches succeeded.", "quantifier": "every flank, gear data and search result", "why_tests_cant": "A test evaluates finitely many sample points; the claim is an identity over a continuum of inputs.", "anchors": ["src/gggears/gggears_core.py: generate_reference_profile, trim_reference_profile"]}
{"id": "C92", "title": "The involute flank rolls on the rack", "statement": "The planar flank of InvoluteTooth and the straight flank of the rack of the same pressure angle are conjugate: when the gear turns by tau and the rack moves by the pitch radius times tau, they touch in one point, on the line through the pitch point at right angles to the rack flank, with the same tangent, and the tooth stays on one side of the rack flank.", "quantifier": "every pitch radius, pressure angle, tooth width, limits, position and point of the flank", "why_tests_cant": "A test evaluates finitely many sample points; the claim is an identity over a continuum of inputs.", "anchors": ["src/gggears/gearteeth.py: InvoluteTooth, generate_rack_curve"]}
{"id": "C93", "title": "Undercut", "statement": "The undercut curve is the path of the rack's corner in the turning gear, starts at the corner, and the corner is the lower end of the rack flank unless that passes the middle of the gap. The rack touches the involute along its whole flank exactly when the dedendum is at most rp sin^2(alpha). A tooth whose base circle is inside the dedendum circle is left alone and needs no undercut; a tooth can be treated although it needs none.", "quantifier": "every pitch radius, pressure angle, limits and search result", "why_tests_cant": "A test evaluates finitely many sample points; the claim is an identity over a continuum of inputs.", "anchors": ["src/gggears/gearteeth.py: InvoluteUndercutTooth, generate_undercut_curve"]}
{"id": "C94", "title": "Assembly of an undercut tooth", "statement": "An undercut tooth consists of a piece of the corner's path from the corner on, followed by the rest of the flank, ends where the flank ends, and is joined exactly when the intersection search found a true crossing. A flank that is a single curve, or a generator made without limits, raises AttributeError.", "quantifier": "every flank, undercut curve and search result", "why_tests_cant": "A test evaluates finitely many sample points; the claim is an identity over a continuum of inputs.", "anchors": ["src/gggears/gearteeth.py: trim_involute_undercut, InvoluteUndercutTooth, OctoidUndercutTooth"]}
{"id": "C95", "title": "Flanks of bevel gears lie on the sphere of the pitch cone", "statement": "The octoid, spherical involute and cycloid flanks of a bevel gear pass through the pitch point, half the tooth angle from the middle plane, and all their points are on the sphere about the apex of the pitch cone. The bevel cycloid tooth is made of two pieces joined at the pitch point, its top taken from the best of the search's attempts. The search for the base circle of a spherical involute has, up to 60 degrees of pressure angle, exactly one solution that is not negative, the pitch radius times the cosine of the pressure angle. An octoid flank of a cone with negative angle or of more than a half turn is on a sphere on the wrong side.", "quantifier": "every pitch radius, cone angle, pressure angle, tooth width and curve parameter", "why_tests_cant": "A test evaluates finitely many sample points; the claim is an identity over a continuum of inputs.", "anchors": ["src/gggears/gearteeth.py: OctoidTooth, InvoluteTooth, CycloidTooth", "src/gggears/curve.py: find_curve_nearest_point"]}
{"id": "C96", "title": "The octoid flank rolls on the flat crown rack", "statement": "The octoid flank of a bevel gear and the great circle flank of the crown rack are conjugate: in the pose where the gear has turned by tau and the crown wheel in the ratio of the pitch radii they touch in a point, with the same tangent plane, the flank point has no velocity across the rack flank, and the great circle from the point to the pitch point is at right angles to the flank. The rack flank passes through the pitch circle, but its lower end stays above the dedendum.", "quantifier": "every pitch radius, cone angle, pressure angle, tooth width and point of the flank", "why_tests_cant": "A test evaluates finitely many sample points; the claim is an identity over a continuum of inputs.", "anchors": ["src/gggears/gearteeth.py: OctoidTooth, generate_flat_rack_curve"]}
{"id": "C97", "title": "Lower limit of a flank", "statement": "check_lower_curve_limit keeps the upper end of a flank and keeps it joined. A planar flank then starts on the dedendum circle if the crossing was found, and otherwise at or inside it. A bevel flank whose crossing is found stops at the dedendum cone only in the middle plane and above it elsewhere; if the crossing is not found the arc added is on the sphere but too long, by the complement of the pitch angle, and can go past the axis. A bevel gear without undercut is cut off at depth 1.2 whatever dedendum was asked for.", "quantifier": "every flank, limits, cone angle and search result", "why_tests_cant": "A test evaluates finitely many sample points; the claim is an identity over a continuum of inputs.", "anchors": ["src/gggears/gggears_base_classes.py: GearToothGenerator.check_lower_curve_limit, GearToothConicGenerator.check_lower_curve_limit"]}
{"id": "C98", "title": "Default tooth generators", "statement": "The default flank of a cylindrical gear is a line of 0.4 rp with its middle in the pitch point, at the given angle to the radius; that of a bevel gear is an arc on the pitch cone's sphere that starts at the pitch point. RackToothGenerator ignores its tooth width and pitch.", "quantifier": "every pitch radius, cone angle, tooth width and tooth angle", "why_tests_cant": "A test evaluates finitely many sample points; the claim is an identity over a continuum of inputs.", "anchors": ["src/gggears/gggears_base_classes.py: GearToothGenerator, GearToothConicGenerator, RackToothGenerator"]}
{"id": "C99", "title": "Reported reference circles", "statement": "The four circles a gear reports at a height (radii_data_gen) are circles about the gear's axis in the gear's placed coordinates: tip, root and outside circle with the radii of the profile at that height, pitch circle with radius teeth/2, all times the gear's and the slice's scale, at the placed level of the profile. Moving, turning or meshing the gear does not change the radii; scaling changes them in proportion.", "quantifier": "every involute gear, placement and height whose profile exists", "why_tests_cant": "A test evaluates finitely many sample points; the claim is an identity over a continuum of inputs.", "anchors": ["src/gggears/gggears_wrapper.py: radii_data_gen, radii_data_bottom, radii_data_top"]}
{"id": "C100", "title": "Reported addendum and dedendum radius", "statement": "addendum_radius (dedendum_radius) is the distance of the tip (root) end of the flank from the axis, times the scale, when the tooth has a land (the gap has a bottom); for a spur gear without fillets that is module*(z/2 + addendum + shift) and module*(z/2 - dedendum + shift). When the tooth comes to a point below the tip circle, addendum_radius is still the radius of the tip circle, although no point of the tooth is that far out.", "quantifier": "every involute gear and solver answer whose flank is usable", "why_tests_cant": "A test evaluates finitely many sample points; the claim is an identity over a continuum of inputs.", "anchors": ["src/gggears/gggears_wrapper.py: addendum_radius, dedendum_radius", "src/gggears/gggears_core.py: trim_reference_profile"]}
{"id": "C101", "title": "Reported cone angles", "statement": "cone_angles_at_z reports, for a bevel gear whose teeth have lands, the angles from the axis under which the outside circle, root circle, pitch circle and tip circle are seen from the apex; the pitch angle reported is half the cone angle. An angle beyond a right angle (the tip of a nearly flat gear) is reported as its supplement, so it is right exactly up to 90 degrees.", "quantifier": "every bevel gear, placement, scale and height", "why_tests_cant": "A test evaluates finitely many sample points; the claim is an identity over a continuum of inputs.", "anchors": ["src/gggears/gggears_wrapper.py: cone_angles_at_z, cone_angle_limits_bottom, cone_angle_limits_top"]}
{"id": "C102", "title": "Face and centre locations", "statement": "center_location_at_z is the frame that carries the coordinates of the slice to the placed gear. face_location is the same frame moved along the axis to the centre of the outside circle, so the outside circle lies in its plane. The two agree on cylindrical gears and on no external bevel gear.", "quantifier": "every gear, placement and height whose profile exists", "why_tests_cant": "A test evaluates finitely many sample points; the claim is an identity over a continuum of inputs.", "anchors": ["src/gggears/gggears_wrapper.py: center_location_at_z, face_location_top, face_location_bottom"]}
{"id": "C103", "title": "Setting the centre of the reference circles", "statement": "Assigning GearRefCircles.center moves every one of the four circles rigidly so that its own centre becomes the given point, keeping its radius. Assigning the present centre changes nothing exactly when the circles have one common centre; on a bevel gear it does change them, since the outside circle is at another level.", "quantifier": "every set of circles and every point", "why_tests_cant": "A test evaluates finitely many sample points; the claim is an identity over a continuum of inputs.", "anchors": ["src/gggears/gggears_base_classes.py: GearRefCircles.center"]}
{"id": "C104", "title": "Base circle and base angle", "statement": "circle_involute_base of a cylindrical gear is the placed circle of radius pitch radius times cos(pressure angle), r_base is its radius, and the involute part of a tooth starts on it at angle_base. For a bevel gear circle_involute_base raises AttributeError and angle_base raises ValueError.", "quantifier": "every involute gear, placement and height ratio", "why_tests_cant": "A test evaluates finitely many sample points; the claim is an identity over a continuum of inputs.", "anchors": ["src/gggears/gggears_wrapper.py: r_base, angle_base, circle_involute_base"]}
{"id": "C105", "title": "Profile of a spur gear between root and tip circle", "statement": "For a spur gear without fillets and undercut, once the searches find the crossings, the trimmed flank starts on the root circle, ends on the tip circle, is made of a radial line below the base circle and the involute above, and its distance from the axis grows strictly along it; the profile exists and its tip and root arcs have the radii of the circles. The crossings always exist when the root circle is not below half the base circle and the involute reaches the tip circle.", "quantifier": "every pitch radius, pressure angle, tooth width, addendum and dedendum with a gap and a land", "why_tests_cant": "A test evaluates finitely many sample points; the claim is an identity over a continuum of inputs.", "anchors": ["src/gggears/gggears_core.py: trim_reference_profile, generate_reference_profile", "src/gggears/gearteeth.py: InvoluteTooth"]}
{"id": "C106", "title": "Gear outline does not cross itself", "statement": "For a flank that leads strictly outwards without turning back and whose tooth has a land and a space wider than 1e-10, the outline of the whole gear passes through no point twice, runs exactly once round the axis counterclockwise, and stays between the root and the tip circle. A spur gear without fillets and undercut has such an outline, as function and as the curve object of generate_boundary.", "quantifier": "every number of teeth, every such flank, every pair of places on the outline", "why_tests_cant": "A test evaluates finitely many sample points; the claim is an identity over a continuum of inputs.", "anchors": ["src/gggears/gggears_core.py: generate_boundary, trim_reference_profile", "src/gggears/gggears_core.py: generate_reference_profile"]}
{"id": "C107", "title": "Meshed flanks come no closer than the requested gap", "statement": "After gear.mesh_to(other) of two external cylindrical involute gears with an exact root and backlash bl >= 0, roll the gears by any amount. Take any two facing flanks whose facing points lie on the flanks (at or above both base circles). The distance between these two points is bl/2*(1+bias) for lower flanks and bl/2*(1-bias) for upper flanks, and no other pair of points of the two flanks, taken from the centres of the gears along the radial line to the base circle and then along the involute up to unrolling angle pi, is closer. If both facing points lie above the base circles, every other pair of points is strictly farther apart. So with a gap the flanks have no common point, and without a gap they touch in exactly one point and never cut into each other. If the length of action is at least one base pitch plus the gap, such a pair of flanks exists in every position.", "quantifier": "all pairs of external cylindrical involute gears with equal base pitch, all backlashes, biases, rolls, tooth pairs and points on the flanks", "why_tests_cant": "The claim compares every point of one flank with every point of the other in every position. A test can sample points and positions only, and touching curves differ by arbitrarily small distances near the point of contact.", "anchors": ["src/gggears/gggears_wrapper.py:InvoluteGear.mesh_to", "src/gggears/function_generators.py:involute_circle"]}
{"id": "C108", "title": "Numerical derivatives and Hermite fits", "statement": "Curve.derivative gives a difference quotient for order one; every higher order raises TypeError. fit_bezier_hermite_cubic returns a Bezier curve that starts and ends where the curve does and whose end velocities are the difference quotients with step 1e-4 inside the curve; a straight line is reproduced exactly, a cubic polynomial up to an explicit error proportional to the step, and no parabola exactly. fit_bezier_hermite_quadratic has the right end points for every answer of the solver, and leaves and arrives along the same difference quotients when the answer is a root; for a parabola the root is unique and the middle control point is off by half the step times the second order coefficient.", "quantifier": "every curve, parameter, order and step; every answer of the solver", "why_tests_cant": "A test evaluates finitely many sample points; the claim is an identity over a continuum of inputs.", "anchors": ["src/gggears/curve.py:Curve.derivative", "src/gggears/curve.py:fit_bezier_hermite_cubic, fit_bezier_hermite_quadratic"]}
{"id": "C109", "title": "Arc functions and the arc class", "statement": "arc_from_2_point_center agrees with ArcCurve.from_2_point_center at every parameter and number of turns, and gives no point when the points are in line with the centre. arc_from_2_point with a radius above half the chord agrees with ArcCurve.from_2_point_curvature for positive curvature; for negative curvature it runs that arc backwards from the first point, so it ends at the second point exactly for positive curvature. A smaller radius gives the half circle on the chord, ending at the second point, for either sign. Curvature zero is the straight line, equal points raise NameError (UnboundLocalError), an axis along the chord gives no point.", "quantifier": "all points, centres, curvatures, axes, numbers of turns and parameters", "why_tests_cant": "A test evaluates finitely many sample points; the claim is an identity over a continuum of inputs.", "anchors": ["src/gggears/function_generators.py:arc_from_2_point, arc_from_2_point_center", "src/gggears/curve.py:ArcCurve.from_2_point_center, ArcCurve.from_2_point_curvature"]}
{"id": "C110", "title": "Winding index of a curve", "statement": "curve_index of a circle run round w times about its own centre is n*|sin(2 pi w/n)|/(2 pi): at most |w|, and short of it by at most the fraction (2 pi w/n)^2/6. About another centre (w coprime to the number n of points) it is that value divided by |1-q^n|, q the centre in units of the start radius; it raises exactly when q^n = 1. So at rho radii from the middle the index is |w| inside and 0 outside up to terms in rho^n, while close to the circle it takes arbitrarily large values inside and outside. The index does not change when curve and centre are moved, turned, scaled or mirrored together, nor when a closed curve is run backwards.", "quantifier": "every circle, start angle, number of turns, number of points and centre; every curve for the symmetries", "why_tests_cant": "A test evaluates finitely many sample points; the claim is an identity over a continuum of inputs.", "anchors": ["src/gggears/curve.py:curve_index"]}
{"id": "C111", "title": "The flank of a bevel gear runs from the root cone to the tip cone along the crown rack's trace, outwards all the way", "statement": "For a bevel gear made without undercut, fillets or tip truncation whose flank is not undercut down to the root cone, `curve_gen_at_z` returns a profile whose flank starts exactly on the root cone (half angle gamma - h_d/R) and ends exactly on the tip cone (gamma + h_a/R), and consists of every point of the crown rack's trace in between, each once. Along it the cone angle, the polar angle and the distance from the axis increase strictly. The two lands lie on circles of radius R sin(gamma + h_a/R) and R sin(gamma - h_d/R) about the axis at the levels of these cones; the outline of all teeth has no crossings; and the reported addendum/dedendum radii and cone angles are those of the cones.", "quantifier": "for all tooth numbers, cone angles below 180 degrees, pressure angles in (0, 90) degrees, shifts, depths, tooth angles and heights z, and every solver that returns crossings within the range that is not undercut", "why_tests_cant": "sample gears cannot show that a transcendental curve on a sphere never turns back, nor that the solver's crossing is the only one; the limit of undercut depends on all parameters", "anchors": ["src/gggears/gearteeth.py:217-265", "src/gggears/function_generators.py:octoid", "src/gggears/gggears_core.py:435-577", "src/gggears/gggears_wrapper.py:198-249"]}
{"id": "C112", "title": "Sections of a bevel gear fit the blank the solid is cut from", "statement": "sphere_data_at_z(z) names the sphere on which the whole section of a bevel gear at height z lies: tooth flanks, lands, the outside circle and its extensions all keep the distance of the pitch circle from the apex. gen_ref_solid of an external bevel gear is the set of points above the lower outside circle that lie between the spheres of the two end sections, or in the cone through the two outside circles below the upper one. Every section between the ends lies in that blank when the root is not deeper than the outside circle (dedendum minus shift at most 2 modules, and less than the pitch radius); when it is deeper, the root of the first section lies outside the blank. Sections beyond the ends (the 1 percent extension of the side surfaces) are outside the shell. For a cylindrical ring gear the outside circle of every section lies on the surface of gen_outside_ring. A round region of space that contains the flank contains the whole outline.", "quantifier": "all tooth numbers, cone angles, depths, shifts, heights of sections, and every solver that returns crossings within the range that is not undercut", "why_tests_cant": "The solid is cut with surfaces through the sections; a point of a section outside the blank gives a wrong solid for particular combinations of parameters only, and containment is about every point of every section.", "anchors": ["src/gggears/gggears_build123d.py:137-193", "src/gggears/gggears_build123d.py:220-232", "src/gggears/gggears_core.py:983-1003"]}
{"id": "C113", "title": "Meshed bevel gears stay in contact and turn at the ratio of the tooth numbers", "statement": "After `a.mesh_to(b)` of two external bevel gears with equal modules, pressure angles, cone distances and opposite helix angles, turn `a` by x pitches and `b` by -x pitches, less the play to the side in question (nothing, when both were made without backlash and with shifts of sum zero). Then on every section, and on both sides of the teeth, the flank of each tooth of `a` has a point in common with the flank of one tooth of `b`; the two section curves are tangent there, the common normal is across the line to the common apex, and the two points move equally fast along that normal, so the speed ratio is exactly that of the tooth numbers. As long as the flanks turn away from the crown rack's flank (an explicit inequality) the two flanks lie on different sides of one plane and have no other point in common. If the computed flanks are long enough, some pair of teeth touches at every instant. The play comes from the constructors' backlash and shift only: (backlash_a + backlash_b - (shift_a + shift_b) tan(alpha)) / pi pitches to each side, negative for a positive sum of shifts.", "quantifier": "for all tooth numbers, cone angles below 180 degrees, pressure angles in (0, 90) degrees, opposite helix angles, directions of mesh_to, amounts of turning and sections z", "why_tests_cant": "contact is an equality of points in space at every angle of rotation; sampling angles can only bound a gap, and a conjugacy error of bevel flanks is far below any mesh tolerance", "anchors": ["src/gggears/gggears_wrapper.py:641-716", "src/gggears/gearteeth.py:217-265", "src/gggears/function_generators.py:octoid", "src/gggears/gearmath.py:calc_mesh_angle"]}
{"id": "C114", "title": "The fillets of a rack round its corners and leave the flank between them", "statement": "For an `InvoluteRack` (or `HelicalRack`) with a usable tooth, the outline with `tip_fillet` and `root_fillet` exists exactly if the tip fillet fits on the tip land, the root fillet on the root land and both together on the flank; it is then the one with the tip corner and the root corner replaced by tangent arcs of the given radii (the vertices picked by their order in y are the right ones). A point of the straight flank is on the outline exactly if its level lies between -dedendum + root_fillet (1 - sin alpha) and addendum - tip_fillet (1 - sin alpha), so the meshing contact is unchanged there. The tip arc stays inside the sharp tooth, the root arc outside it. The finished part is placed by the rack's own orientation.", "quantifier": "for all pressure angles in (0, 90) degrees, addenda, dedenda, backlashes and fillet radii >= 0 of usable racks", "why_tests_cant": "the vertex is picked by sorting; a wrong pick, or an arc cutting the flank, appears only for certain combinations of five real parameters", "anchors": ["src/gggears/gggears_wrapper.py:2124-2175", "src/gggears/gggears_wrapper.py:2203-2215"]}
{"id": "C115", "title": "The faces of a cylindrical gear fit together edge to edge", "statement": "Building a gear with cone angle 0 gives n_teeth x segments x outline-curves side faces, two covers and, for a ring gear, the outside ring, such that every boundary edge of a face coincides exactly (same control points, same weights) with a boundary edge of exactly one other face - the next patch, the next segment, the next tooth, a cover or the ring - so that no edge is left open. When sections are fitted (more than two layers), neighbouring teeth meet if the optimiser has converged, and need not if it was stopped early.", "quantifier": "for all numbers of teeth, profiles whose curves run head to tail and repeat after the pitch angle, heights and numbers of segments, all answers of the optimisers that make the gradient vanish", "why_tests_cant": "a shell is watertight only if every one of hundreds of edges has an equal partner; a test builds one gear and the CAD kernel sews small gaps shut silently", "anchors": ["src/gggears/gggears_convert.py:75-166", "src/gggears/gggears_build123d.py:66-88", "src/gggears/gggears_build123d.py:195-218", "src/gggears/gggears_build123d.py:289-315", "src/gggears/gggears_build123d.py:492-504"]}
{"id": "C116", "title": "build_part makes a closed body of a cylindrical involute gear", "statement": "For a cylindrical involute gear (InvoluteGear, SpurGear, SpurRingGear, HelicalGear, HelicalRingGear with cone angle 0) whose teeth have a land at the tip and a gap at the root, building the part succeeds and every edge of a face coincides with an edge of exactly one other face. With straight uncrowned teeth the default part has two rows of control points, its walls are parallel to the axis, and the bottoms of the gaps and the tops of the teeth are pieces of cylinders about the axis with the root and the tip radius, one of each per tooth, from flank to flank. With crowning or helix angle there are at least three rows, growing with the twist so that a row covers at most a twelfth of a turn (cycloid: an eighth) beyond the two end rows, and never more than 15 for a HelicalGear; a HelicalRingGear uses at most five rows however much it is twisted.", "quantifier": "for all numbers of teeth, modules, pressure angles, heights, tooth proportions, crossings found by the searches, numbers of points per flank, answers of the optimiser for curves", "why_tests_cant": "whether the sections of every gear convert into matching faces depends on the geometry of each gear; tests build a few gears and look at the result", "anchors": ["src/gggears/gggears_wrapper.py:594-629", "src/gggears/gggears_wrapper.py:1329-1353", "src/gggears/gggears_wrapper.py:1758-1791", "src/gggears/gggears_core.py:430-432", "src/gggears/gggears_convert.py:91-107"]}
{"id": "C117", "title": "The tooth surfaces of a bevel gear form an open tube that reaches past the blank", "statement": "Building the part of a bevel gear (octoid teeth with a land and a gap, no crowning) makes four faces per tooth and per z segment, for the gap, the flank, the land and the mirrored flank. Every edge of a face is shared by exactly two faces except those of two closed rings of four edges per tooth: one ring lies outside the sphere that bounds the blank at its large end by 1% of the face width, the other one inside the sphere that bounds it at the small end by as much. Without spiral the faces consist of straight lines through the apex of the pitch cone, and the corners of the faces are the points of the tooth profile, scaled towards the apex and turned by multiples of the pitch angle.", "quantifier": "for all numbers of teeth, cone angles, pressure angles, heights, tooth proportions, spiral angle functions, numbers of points per flank, extension ratios, crossings found by the searches, converged answers of the optimiser", "why_tests_cant": "a tube with a leak, or one that ends inside the blank, makes the CAD kernel's split fail for some gears only; tests build a few gears", "anchors": ["src/gggears/gggears_build123d.py:89-107", "src/gggears/gggears_build123d.py:195-218", "src/gggears/gggears_convert.py:49-166", "src/gggears/gggears_wrapper.py:594-629"]}
{"id": "C118", "title": "Building a bevel gear leaves the gear as it was, unless it fails", "statement": "GearBuilder lengthens the gear's z_vals while it makes the surfaces of a bevel gear. When this succeeds the gear afterwards is the gear before, in every attribute. When it raises, the gear stays longer by 1% of its length at both ends (and is unchanged only if that is nothing), so k failed attempts multiply the length by 1.02^k; build_part(n_vert=1) fails in this way for every bevel gear.", "quantifier": "for all bevel gears, all arguments of build_part, all answers of the searches and the optimiser, every number of attempts", "why_tests_cant": "the damage appears only after an exception, in attributes of an object that a test of the exception does not look at again", "anchors": ["src/gggears/gggears_build123d.py:89-105", "src/gggears/gggears_convert.py:49-73", "src/gggears/gggears_wrapper.py:594-629"]}
{"id": "C119", "title": "Of the pieces of a cut bevel blank, the gear is kept", "statement": "GearBuilder cuts the blank of a bevel gear by the tooth surfaces, sorts the pieces by the height of the middle of their bounding boxes and keeps the lowest, or the second for ring gears. This picks the gear and not the waste, in whatever order the split returns the two pieces. For ring gears the outer radii give a frustum of positive height exactly if the pitch angle plus two modules stays below a right angle; its side face then divides the space between the section spheres into exactly two parts, and the one of smaller volume is the blank.", "quantifier": "for all bevel gears, heights, tooth surfaces that stay between the root cone and the tip cone, every order of the pieces; for ring gears every outer cone below a right angle", "why_tests_cant": "the choice depends on where boxes around solids of arbitrary proportions lie; the comment beside the code names another criterion, so a test of one size of gear does not show which of them picks the gear", "anchors": ["src/gggears/gggears_build123d.py:109-127", "src/gggears/gggears_build123d.py:172-188"]}
{"id": "C120", "title": "Undercut relief and tip truncation leave a gear with enough teeth as it is", "statement": "enable_undercut=True and tip_truncation=0.1 are on by default. The undercut relief changes no tooth of a cylindrical involute gear whose base circle lies inside the root circle, and the tip circle is lowered only where the two flanks of a tooth meet less than the truncation above it, and then to exactly the truncation below that point. So SpurGear(n) with default parameters has, from n = 40 on, the profile and the part of the gear with both switched off: involute flanks from n/2 - 1.2 to n/2 + 1 modules, and a closed skin. 40 is the least number of teeth with the base circle inside the root circle.", "quantifier": "for all cylindrical involute gears without crowning, all numbers of teeth (40 and more for the defaults), heights, modules, placements and all answers of the searches that lie on the flank and in the symmetry plane", "why_tests_cant": "the two refinements branch on the numbers of a gear and on what four searches find; that neither acts for an unbounded family of gears needs estimates of the involute function", "anchors": ["src/gggears/gggears_core.py:192-228", "src/gggears/gggears_core.py:611-622", "src/gggears/gearteeth.py:147-157", "src/gggears/gggears_wrapper.py:824-842"]}
{"id": "C121", "title": "A gear with undercut relief has the flank left by the rack's corner, and a closed part", "statement": "When the base circle of a cylindrical involute gear lies outside its root circle, enable_undercut=True replaces the foot of the tooth by the path of the corner of the basic rack, rolled on the pitch circle. The trimmed flank then starts on the root circle exactly where that path is nearest to the axis, follows the path, changes over to the involute once, outside the base circle, and ends on the tip circle; its distance from the axis rises strictly all the way. The part is built and its skin is closed: six faces per tooth and z segment, every edge shared by exactly two of them or by one and a cover. This includes SpurGear(n) with default parameters for all n from 10 to 39, with n/2 - 1.2 and n/2 + 1 modules as root and tip radius.", "quantifier": "for all cylindrical involute gears without crowning and helix, with room for the corner between the teeth (10 to 39 teeth for the defaults), heights, modules, placements, all answers of the searches that lie where the curves cross, all converged answers of the optimiser", "why_tests_cant": "the foot is put together from the results of five searches; one that starts the foot on the wrong branch, or leaves a gap of a few percent of a module at the change-over, still gives a plausible picture for the gears a test looks at", "anchors": ["src/gggears/gearteeth.py:147-191", "src/gggears/gearteeth.py:493-562", "src/gggears/gggears_core.py:192-228", "src/gggears/gggears_wrapper.py:526-545"]}
{"id": "C122", "title": "Every default helical gear with ten or more teeth has a closed part with the expected flanks", "statement": "HelicalGear(n, helix_angle) with its other parameters at their defaults, herringbone or not, can be built for every tooth number from ten on and every helix angle up to 60 degrees: build_part() succeeds and the skin of the part is closed. In the transverse plane, in units of the transverse module, the teeth end on the circle of radius n/2 + cos(helix) and begin on the circle of radius n/2 - 1.2 cos(helix). The flank is the involute of the transverse pressure angle atan(tan(20 deg)/cos(helix)); below it lies the path of the corner of the rack where the base circle is outside the root circle, and otherwise undercut relief and tip truncation change nothing. Answers of the searches and of the surface fit that make this so always exist, except for the searches at a helix angle where the corner of the rack passes exactly through the foot of the involute.", "quantifier": "for all n >= 10, helix angles of either sign with cos >= 1/2, heights, modules, placements, z anchors, herringbone or not, all answers of the searches that lie where the curves cross, all converged answers of the optimiser", "why_tests_cant": "the two cases and the limits depend on tooth number and helix angle together; a test builds a few combinations, and cannot tell whether some other one has a pointed tooth or teeth that run into each other at the root", "anchors": ["src/gggears/gggears_wrapper.py:526-629", "src/gggears/gggears_wrapper.py:1015-1160", "src/gggears/gearteeth.py:147-191", "src/gggears/gggears_convert.py:168-267"]}
{"id": "C123", "title": "Cycloid gears have a closed part with hypocycloid feet and epicycloid tips", "statement": "The flank of a cylindrical CycloidGear without fillets is, below the pitch circle, the path of a point of the inner rolling circle and, above it, of a point of the outer one; the two parts join on the pitch circle. The trimmed flank starts on the root circle, ends on the tip circle, and its distance from the axis rises strictly all the way. build_part() without crowning succeeds, with straight or helical teeth, and the skin is closed: six faces per tooth and z segment, every edge shared by exactly two faces. CycloidGear(n) with default parameters is such a gear for every n from nine on: the feet are straight lines through the axis from n/2 - 1.2 to n/2 modules, the tips nephroids up to n/2 + 1, and the default tip truncation changes nothing. Answers of the searches and of the surface fit that make this so always exist.", "quantifier": "for all cylindrical cycloid gears without crowning whose root circle is passed within a quarter turn of the inner rolling circle and whose tip circle is passed with a land left (all n >= 9 for the defaults), helix angles, heights, modules, placements, z anchors, inside teeth or not, all answers of the searches that lie where the curves cross, all converged answers of the optimiser", "why_tests_cant": "the flank is put together from two generated curves and the answers of four searches; whether the tooth is pointed, or the flank turns back, for some radii of the rolling circles cannot be seen from those a test tries", "anchors": ["src/gggears/gearteeth.py:565-628", "src/gggears/gggears_wrapper.py:1682-1791", "src/gggears/gggears_core.py:599-650", "src/gggears/gggears_convert.py:168-267"]}
{"id": "C124", "title": "boundary_at_z() gives the outline at the height asked for only with continuous=False", "statement": "gear.boundary_at_z(z, continuous=False) gives the outline of the gear's section at the height z: its points are the points of the reference profile, turned tooth by tooth, moved to z, twisted and placed in space, all of them and no others, and it starts at the start of the first tooth. With the default continuous=True the step that moves the section to its height is left out: without crowning the same curve comes back for every z, its points lie z modules too low along the gear's axis, its start is right only for z = 0, and a tooth number that is a float raises TypeError.", "quantifier": "for all cylindrical gears, placements with orthogonal orientation, heights z, and profiles that do not cross themselves and whose ends are one pitch apart; gear-level form for all cylindrical involute gears with teeth, spur gears and cycloid gears without crowning", "why_tests_cant": "a test compares the outline at a few heights, and most examples draw it at z = 0, where both forms agree; that the default ignores z altogether, and that the other form misses no point, are statements about all heights and all points", "anchors": ["src/gggears/gggears_core.py:1005-1015", "src/gggears/gggears_core.py:754-794"]}
{"id": "C125", "title": "Outlines with undercut or cycloid flanks do not cross or touch themselves", "statement": "The closed outline of a gear's section returns to no point: along the curve that generate_boundary() gives, different parameters are different points, and in space no two places on the teeth coincide, whichever teeth they are on. This also holds where the flanks turn back, as undercut flanks and cycloid flanks do, provided that they lead away from the axis and each stays in its own half of its tooth. The outline stays between the circles through the ends of the flank, and the chain form of boundary_at_z() has exactly the points of the teeth. Default spur gears with 10 to 39 teeth, whose flanks are all relieved, and default cycloid gears with 9 or more teeth have such flanks.", "quantifier": "for all cylindrical involute and cycloid gears with such flanks, all heights, all placements with orthogonal orientation and nonzero scale; all gears with undercut relief and without fillets whose rack corner lies further to the side than below the pitch line; all default spur gears with 10..39 teeth and default cycloid gears with n >= 9 teeth", "why_tests_cant": "a test can compare finitely many points of a few outlines; that no two of infinitely many points coincide, for every tooth number, and in particular where an undercut makes the direction of the flank turn back, needs an order along the whole outline", "anchors": ["src/gggears/gggears_core.py:435-598", "src/gggears/gggears_core.py:754-794", "src/gggears/gggears_core.py:1005-1015"]}
{"id": "C126", "title": "A tooth generator handed to a gear belongs to that gear", "statement": "Gear.swap_tooth_generator() gives the gear the flanks of the new generator with the pitch radius, cone angle and intersect angle it had, just as if the gear had been constructed with that generator; the generator passed is left alone, other gears keep their profiles, later changes to the passed generator do not show, and swapping back restores the gear. Gear.copy() gives an independent gear. This is true except for three things: gears made on one shape_recipe change together; Gear(tooth_generator=tg) keeps tg itself and overwrites its pitch data, so a second gear made from tg changes the flanks of the first (while the first keeps its cone and pitch angle); and an object of the class GearToothGenerator itself, which the annotations ask for, makes every profile fail with TypeError.", "quantifier": "for all sequences of making generators, assigning to them, making gears, swapping and copying; all classes of generators, all tooth numbers, cones and heights z", "why_tests_cant": "whether two objects share state shows only in what some later call does to them; a test follows a few call sequences, but the promise is about all of them", "anchors": ["src/gggears/gggears_core.py:851-946", "src/gggears/gggears_core.py:980-981", "src/gggears/gggears_core.py:1017-1028", "src/gggears/gggears_base_classes.py:29-45", "src/gggears/gggears_base_classes.py:485-543"]}
{"id": "C127", "title": "NURBSCurve.from_curve_chain keeps the curve", "statement": "Turning a chain, nested or not, into a NURBSCurve (as the builder does for the caps of a part) gives a flat chain with the same members in the same order, the same length and activity, and the same point at every parameter; it raises ValueError exactly when some member, active or not, is not a NurbCurve. The exception: an inner chain that is switched off comes back to life, because only its curves are taken over, not its switch.", "quantifier": "for all chains of any nesting whose lengths are up to date, all parameters s in R", "why_tests_cant": "a test compares the two curves at some parameters of one chain; nesting depth, inactive members and the parameter are all unbounded", "anchors": ["src/gggears/curve.py:1558-1564", "src/gggears/curve.py:1640-1649", "src/gggears/curve.py:477-484", "src/gggears/gggears_build123d.py:237-287"]}
{"id": "C128", "title": "involute_func returns points of an involute", "statement": "function_generators.involute_func(t, r, a, ...) promises the x-y-z values of the involute of a circle (or, with csph, of the spherical involute), also for a list of parameters. It does not: in the plane the offset column and the row vectors are broadcast against each other, so a 3x3 array comes back, none of whose columns is the point of the involute for any t and any r other than 0; with csph other than 0 every call raises ValueError; and every list of parameters except the empty one raises ValueError. (The package itself uses involute_circle and involute_sphere, which are right.)", "quantifier": "for all t, r, a, offsets and curvatures, and all lists of parameters", "why_tests_cant": "there is no test of this function; one call shows one wrong array, but that no argument at all gives a point needs all arguments", "anchors": ["src/gggears/function_generators.py:47-128"]}
{"id": "C129", "title": "update_inactive_continuity closes the gaps that inactive pieces leave", "statement": "NURBSCurve.update_inactive_continuity() moves all control points of every inactive piece to one place: the end of the active piece before it, or the start of the first active piece if there is none. The piece is then that point at every parameter, so no gap opens between active pieces that join. Active pieces, numbers of control points and weights stay as they are, and the curve has the same length and the same point at every parameter as before.", "quantifier": "for all NURBS curves with at least one active piece, active pieces of positive length and inactive pieces of any number, position and degree; all parameters", "why_tests_cant": "the loop evaluates the curve while it rewrites it; that the order of rewriting does not matter, for any pattern of active and inactive pieces, cannot be read off from examples", "anchors": ["src/gggears/curve.py:1614-1619", "src/gggears/curve.py:455-463"]}
{"id": "C130", "title": "The intersection searches solve for intersections and nothing else", "statement": "find_curve_intersect, find_curve_line_intersect and find_curve_plane_intersect give scipy a function whose zeros are exactly the intersections: common points of the two curves, points of the curve on the line, points of the curve on the plane. The methods that minimise rank parameters by distance: a lower value means that the two points are closer to each other, or the point closer to the plane. The value for a line is the distance from the line times the length of the direction, so it never changes sign at a crossing. Exceptions: with the zero vector as direction every parameter of every curve counts as an intersection with the line; and the third unknown of find_curve_intersect (EQUALITY) has no effect, so its solutions are never isolated.", "quantifier": "for all curves, offsets, non-zero directions and normals, parameters and values of the third unknown", "why_tests_cant": "tests look at the parameter scipy returns for a few curves; that no other parameter could be accepted is about all parameters", "anchors": ["src/gggears/curve.py:698-716", "src/gggears/curve.py:719-724", "src/gggears/curve.py:727-740"]}
{"id": "C131", "title": "The arc that rounds a corner between two straight edges is the only one, with tangents of r·tan(φ/2)", "statement": "For two straight edges A-Q and Q-B that turn by an angle φ at Q, calc_tangent_arc(line1, line2, r) has exactly one solution: the arc touches each edge at the distance r·tan(φ/2) from the corner, has radius r and length r·φ. Both methods (EQUALITY and MINDISTANCE) look for this solution and no other. If the edges are in one line there are no centres, for any radius. The returned places t1, t2 lie on the edges exactly if r·tan(φ/2) is not more than the length of the edge. If the radius is larger, nothing is reported: the search succeeds with places beyond the ends of the edges. On the chain of the two edges, on which CurveChain.fillet works, this is also the only solution outside the step of the numerical derivative around the corner, and the filleted chain is joined and runs from A to B. The places from which fillet starts its search are exchanged (the first after the corner, the second before it) and are never a solution for a radius of more than DELTA times the length of the chain.", "quantifier": "for all positions of A, Q, B in space, all radii, all places on the edges and beyond; for the arc all right answers of the search", "why_tests_cant": "a test shows one corner with one radius; that the equation has no second solution, and for which radii the solution leaves the edges, is about all real parameters", "anchors": ["src/gggears/curve.py:948-995", "src/gggears/curve.py:1072-1098"]}
