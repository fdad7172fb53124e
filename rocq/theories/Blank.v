(** The blank of a bevel gear: gggears_core.py 983-1003 (sphere_data_at_z, cone_at_z) for the gears of the wrapper and
    gggears_build123d.py 137-193 (gen_ref_solid), 220-232 (gen_outside_ring).

    build123d solids are point sets: [make_sphere] is a closed ball, [make_cone] a closed frustum, [+] and [fuse] unions,
    [-] leaves the boundary of what is taken away, [split] with [Keep.TOP] keeps the points on or above the plane.  Turning
    a ball about the z axis through its centre (154-163) does not change it and is left out, as are [clean], the choice
    among several solids (181-182; the difference of the two balls is one solid) and the split for ring gears (184-188, see Choose.v). *)
From Coq Require Import Reals List ZArith Lra Bool.
From Verif Require Import Num Vec Transform Params Coords Interp Curve Chain GearMath Tooth Wrapper Info RefLines Profile Build
  Fillet Teeth Report.
Import ListNotations.
Open Scope R_scope.

(** gggears_core.py 997-1003: the cone of the recipe at [z] with the product of the two transforms; [T] is [self.transform]. *)
Definition k_cone_at_z (k : core) (T : gtransform) (z : R) : conic :=
  mkC (k_cone k) (k_rp k) (g_base (g_mul T (k_slice k z))).
(** gggears_core.py 983-995. *)
Definition k_sphere_data (k : core) (T : gtransform) (z : R) : vec * R :=
  let c := k_cone_at_z k T z in (c_center c, c_R c).

(** [bd.Solid.make_sphere(radius=r).translate(c)], gggears_build123d.py 154-163. *)
Definition ball (c : vec) (r : R) : pset := fun p => norm (vsub p c) <= r.
(** [(sph1 + sph2) - sph1.intersect(sph2)], gggears_build123d.py 164. *)
Definition shell (c0 : vec) (r0 : R) (c1 : vec) (r1 : R) : pset := fun p =>
  union (ball c0 r0) (ball c1 r1) p /\ ~ (norm (vsub p c0) < r0 /\ norm (vsub p c1) < r1).
(** Distance from the z axis. *)
Definition axial (p : vec) : R := norm (V (vx p) (vy p) 0).
(** [make_cone(r0, r1, h, plane=XY.offset(z0))], gggears_build123d.py 172-174. *)
Definition make_cone (r0 r1 h z0 : R) : pset := fun p => exists u, 0 <= u <= 1 /\ vz p = z0 + u * h /\
  axial p <= (1 - u) * r0 + u * r1.

(** gggears_build123d.py 137-193 for external teeth; [p0] and [p1] are the profiles at the heights [z0] and [z1], and
    the gear's own transform is replaced by the default one (141-142). *)
Definition outer_center (p : profile) : vec := apply_gear_transform (arc_center (pr_ro p)) (pr_trf p).
(** gggears_build123d.py 170-171. *)
Definition outer_radius (p : profile) : R := arc_radius (pr_ro p) * g_scale (pr_trf p).
(** gggears_build123d.py 137-193. *)
Definition ref_solid (k : core) (p0 p1 : profile) (z0 z1 : R) : pset :=
  let '(c0, r0) := k_sphere_data k g_default z0 in
  let '(c1, r1) := k_sphere_data k g_default z1 in
  let l0 := vz (outer_center p0) in
  let h := vz (outer_center p1) - l0 in
  fun p => union (shell c0 (Rabs r0) c1 (Rabs r1)) (make_cone (outer_radius p0) (outer_radius p1) h l0) p /\ l0 <= vz p.

(** gggears_build123d.py 220-232: the radius and the two heights of the outside ring of a cylindrical ring gear. *)
Definition ring_radius (k : core) : R := - k_ho k + num_teeth (k_tooth k) / 2.
(** gggears_build123d.py 220-232: the swept surface. *)
Definition outside_ring (k : core) : pset := fun p => axial p = ring_radius k /\
  exists u, 0 <= u <= 1 /\ vz p = (1 - u) * k_z_first k + u * k_z_last k.
