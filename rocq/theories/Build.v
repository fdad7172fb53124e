(** src/gggears/gggears_build123d.py: placing and assembling build123d objects.

    A build123d shape stands for the set of points it occupies.  Of build123d the following is
    used: [Location(pos, angles, order)] and [loc * shape] move points by a rotation and a shift,
    [shape.rotate(Axis.Z, a)] turns about the z axis by [a] degrees, [shape.scale(k)] scales about the
    origin, [fuse] is the union, [clean] and [fix] keep the points, [Edge.make_circle] is described
    below.  Building faces from splines is not modelled. *)
From Coq Require Import Reals ZArith Lra Lia List Bool.
From Verif Require Import Num Vec Coords Transform Bezier Interp Curve.
Import ListNotations.
Open Scope R_scope.

(** defs.py line 16 (RAD2DEG), and the conversions [* 180 / PI]. *)
Definition RAD2DEG : R := 180 / PI.
(** gggears_build123d.py 507-516, 549-576: degrees back to radians, as build123d does with the numbers it is given. *)
Definition to_rad (d : R) : R := d * PI / 180.

(** ** GearBuilder_old, lines 379-418 *)

(** [bin(n)[2:]] read from the right, for each character whether it is "1".  For a negative number
    [bin(-5) = "-0b101"], so the slice starts with the letter "b". *)
Fixpoint pos_digits (p : positive) : list bool :=
  match p with
  | xH => [true]
  | xO q => false :: pos_digits q
  | xI q => true :: pos_digits q
  end.
(** gggears_build123d.py 379-418: [bin(n)[2:]]. *)
Definition bin_chars (n : Z) : list bool :=
  match n with
  | Z0 => [false]
  | Zpos p => pos_digits p
  | Zneg p => pos_digits p ++ [false]
  end.

Section Doubling.
  (** A kind of solid with the two operations the loop uses. *)
  Variable S0 : Type.
  Variable rot : R -> S0 -> S0.
  Variable fuse : S0 -> S0 -> S0.

  (** The loop 389-411: [k] counts the digits, [prev] is [shape_dict[k-1]] (the one-tooth solid for
      [k = 0]), [idx] is [angle_idx] and [acc] is [solid2_to_fuse]. *)
  Fixpoint doubling (pitch : R) (ds : list bool) (k : nat) (prev : S0) (idx : nat) (acc : list S0) : list S0 :=
    match ds with
    | [] => acc
    | d :: r =>
        let shape := match k with
                     | O => prev
                     | S k' => fuse prev (rot (pitch * RAD2DEG * 2 ^ k') prev)
                     end in
        if d then doubling pitch r (S k) shape (idx + 2 ^ k)%nat (acc ++ [rot (INR idx * pitch * RAD2DEG) shape])
        else doubling pitch r (S k) shape idx acc
    end.

  (** 413-416: [Solid.fuse(first, *others)], or the single solid; [solid2_to_fuse[0]] of an empty list
      raises. *)
  Definition old_solid (n : Z) (pitch : R) (solid1 : S0) : res S0 :=
    match doubling pitch (bin_chars n) 0 solid1 0 [] with
    | [] => Err IndexError
    | s :: r => Ok (fold_left fuse r s)
    end.
End Doubling.

(** Solids as point sets. gggears_build123d.py 379-418: a [bd.Solid], seen as the points it occupies. *)
Definition pset : Type := vec -> Prop.
(** gggears_build123d.py 389-411: [rotate(bd.Axis.Z, a)]. *)
Definition rotate_deg (a : R) (X : pset) : pset := fun p => X (mapp (rotz (- to_rad a)) p).
(** gggears_build123d.py 389-416: [fuse]. *)
Definition union (X Y : pset) : pset := fun p => X p \/ Y p.

(** ** transform2Location and apply_transform_part, lines 462-466 and 507-516 *)
Record location : Type := mkLoc { loc_pos : vec; loc_rot : mat }.
(** [bd.Location(pos, [a, b, c], bd.Extrinsic.ZYX)]: degrees, about the fixed axes z, then y, then x. gggears_build123d.py 507-516. *)
Definition location_extrinsic_zyx (pos : vec) (a b c : R) : location :=
  mkLoc pos (euler_zyx (to_rad a) (to_rad b) (to_rad c)).
(** [bd.Location(pos, [a, b, c], bd.Intrinsic.XYZ)]: about the moving axes x, then y, then z. gggears_build123d.py 549-576. *)
Definition location_intrinsic_xyz (pos : vec) (a b c : R) : location :=
  mkLoc pos (mmul (mmul (rotx (to_rad a)) (roty (to_rad b))) (rotz (to_rad c))).
(** gggears_build123d.py 462-466: [loc * part], one point. *)
Definition loc_point (l : location) (p : vec) : vec := vadd (mapp (loc_rot l) p) (loc_pos l).
(** gggears_build123d.py 507-516. *)
Definition transform2Location (T : gtransform) : location :=
  let '(a, b, c) := as_euler_zyx (g_orient T) in
  location_extrinsic_zyx (g_center T) (a * RAD2DEG + g_angle T * 180 / PI) (b * RAD2DEG) (c * RAD2DEG).
(** The image of one point of the part. gggears_build123d.py 462-466. *)
Definition apply_transform_part (T : gtransform) (p : vec) : vec :=
  loc_point (transform2Location T) (smul (g_scale T) p).

(** ** arc_to_b123d and line_to_b123d, lines 549-581 *)
(** [bd.Edge.make_circle(radius, plane, start_angle, end_angle)]: equal angles give the full circle;
    otherwise the arc runs counter-clockwise from the start to the end angle, and an end angle more
    than a turn ahead is moved back by full turns (OCCT's periodic trimming). gggears_build123d.py 549-576. *)
Definition circle_point (r : R) (l : location) (th : R) : vec :=
  loc_point l (V (r * cos th) (r * sin th) 0).
(** gggears_build123d.py 549-576: the turn of [make_circle] in degrees. *)
Definition sweep (start stop : R) : R :=
  let d := stop - start in
  let w := d - IZR (floorZ (d / 360)) * 360 in
  if Req_EM_T w 0 then 360 else w.
(** gggears_build123d.py 549-576. *)
Definition make_circle (r : R) (l : location) (start stop : R) : pset :=
  fun p => exists th, start <= th <= start + sweep start stop /\ p = circle_point r l (to_rad th).

(** The stored angles of an arc object are the ones of its matrix (lines 1122-1131, 1203-1209). *)
Definition arc_edge (r a : R) (ce : vec) (m : mat) : pset :=
  let '(yaw, pitch, roll) := as_euler_zyx m in
  let l := location_intrinsic_xyz ce (roll * 180 / PI) (pitch * 180 / PI) (yaw * 180 / PI) in
  if Rlt_dec a 0 then make_circle r l (a * 180 / PI) 0 else make_circle r l 0 (a * 180 / PI).
(** gggears_build123d.py 549-576. *)
Definition arc_to_b123d (c : curve) : option pset :=
  match c_shape c with
  | SArc r a ce m =>
      if andb (if Req_EM_T (c_t0 c) 0 then true else false) (if Req_EM_T (c_t1 c) 1 then true else false)
      then Some (arc_edge r a ce m)
      else match c_shape (from_2_point_center (c_eval c 0) (c_eval c 1) ce 0 true) with
           | SArc r2 a2 ce2 m2 => Some (arc_edge r2 a2 ce2 m2)
           | _ => None
           end
  | _ => None
  end.
(** [line.p0], [line.p1] are the stored end points (lines 1077-1085). *)
Definition line_to_b123d (c : curve) : option pset :=
  match c_shape c with
  | SLine p0 p1 => Some (fun p => exists u, 0 <= u <= 1 /\ p = vadd (smul (1 - u) p0) (smul u p1))
  | _ => None
  end.

(** ** generate_boundary_edges, lines 519-546: where the copies of the profile are placed *)
(** The loop 533-541 on the caller's transform; the result is the list of transforms used and the
    angle left behind in the caller's object. *)
Fixpoint boundary_loop (T : gtransform) (pitch : R) (n : nat) : list gtransform * gtransform :=
  match n with
  | O => ([], T)
  | S n' =>
      let '(l, T') := boundary_loop (mkG (g_center T) (g_orient T) (g_scale T) (g_angle T + pitch)) pitch n' in
      (T :: l, T')
  end.
(** gggears_build123d.py 519-546. *)
Definition boundary_edges (T : gtransform) (angle_range pitch : R) : list gtransform * gtransform :=
  boundary_loop T pitch (Z.to_nat (roundZ (angle_range / pitch))).

(** ** GearBuilder.__init__, lines 53-135: the z values of a bevel gear *)
(** Arrays live in a heap; a gear holds a reference to its [z_vals].  [surf] is what
    [GearToNurbs.__init__] does (it may raise; it only reads the array), [cut] everything after the
    values are restored. gggears_build123d.py 89-105. *)
Definition heap := list (list R).
(** gggears_build123d.py 89-105: the arrays, and the reference [gear.z_vals]. *)
Record gstate : Type := mkGS { gs_heap : heap; gs_z : nat }.
(** gggears_build123d.py 89-105: reading [gear.z_vals]. *)
Definition z_of (s : gstate) : list R := nth (gs_z s) (gs_heap s) [].
(** gggears_build123d.py 95-96: [z[k] = x]. *)
Fixpoint upd_nth {A} (l : list A) (k : nat) (x : A) : list A :=
  match l, k with
  | [], _ => []
  | _ :: r, O => x :: r
  | y :: r, S k' => y :: upd_nth r k' x
  end.
(** 95-96: [z[-1] += r * zdiff], then [z[0] -= r * zdiff]. *)
Definition extend_z (ratio : R) (z : list R) : list R :=
  let zdiff := last z 0 - hd 0 z in
  let z1 := upd_nth z (length z - 1) (last z 0 + ratio * zdiff) in
  upd_nth z1 0 (hd 0 z1 - ratio * zdiff).
(** The builder object: its own reference [self.z_vals] (gggears_convert.py line 56). *)
Record builder : Type := mkBuilder { bl_z : nat }.
(** gggears_build123d.py 59-135. *)
Definition build (cone_angle ratio : R) (surf cut : list R -> option exn) (s : gstate) : gstate * res builder :=
  if Req_EM_T cone_angle 0 then
    (s, match surf (z_of s) with
        | Some e => Err e
        | None => match cut (z_of s) with Some e => Err e | None => Ok (mkBuilder (gs_z s)) end
        end)
  else match z_of s with
  | [] => (s, Err IndexError)
  | z =>
      let save := length (gs_heap s) in
      let s1 := mkGS (upd_nth (gs_heap s ++ [z]) (gs_z s) (extend_z ratio z)) (gs_z s) in
      match surf (z_of s1) with
      | Some e => (s1, Err e)
      | None =>
          let s2 := mkGS (gs_heap s1) save in
          (s2, match cut (z_of s2) with Some e => Err e | None => Ok (mkBuilder (gs_z s)) end)
      end
  end.
(** [k] attempts in a row that fail while the surfaces are generated. gggears_build123d.py 89-105. *)
Fixpoint crash (k : nat) (cone_angle ratio : R) (e : exn) (s : gstate) : gstate :=
  match k with
  | O => s
  | S k' => fst (build cone_angle ratio (fun _ => Some e) (fun _ => None) (crash k' cone_angle ratio e s))
  end.

(** ** gen_side_surfaces, lines 195-220: one entry per face: (z segment, patch, turn in degrees) *)
Definition side_faces (n_teeth : Z) (n_z : nat) (n_patches : nat) (pitch : R) : list (nat * nat * R) :=
  flat_map (fun j => flat_map (fun k =>
      map (fun i => (k, i, pitch * INR j * 180 / PI)) (seq 0 (n_patches - 3)))
    (seq 0 (n_z - 1))) (seq 0 (Z.to_nat n_teeth)).
