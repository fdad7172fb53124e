(** Model of src/gggears/gearmath.py.  Calls of scipy's [root] are split in two: the function
    handed to the solver and the use made of the value it returned; theorems assume that the
    value is an exact root.  A division 0/0 or x/0 by NumPy (nan/inf and a warning) is
    [Err ZeroDivisionError]. *)
From Coq Require Import Reals Lra.
From Verif Require Import Num Vec Transform Params Coords.
Open Scope R_scope.

(** [normalize_vector] (function_generators.py 23-24) with the zero vector made visible. *)
Definition normalize_r (v : vec) : res vec :=
  if Req_EM_T (norm v) 0 then Err ZeroDivisionError else Ok (normalize v).

(** gearmath.py 8-35: cone_angle_from_teeth, result (full cone angle 1, full cone angle 2).
    The square root of a negative number is nan, reported as ValueError. *)
Definition cone_sqrt_arg (z1 z2 axis_angle : R) : R :=
  let cosfi := cos axis_angle in
  (- (z2 * z2) - 2 * z1 * z2 * cosfi - z1 * z1 * cosfi) / (cosfi - 1).
(** gearmath.py 8-35. *)
Definition cone_angle_from_teeth (z1 z2 axis_angle : R) : res (R * R) :=
  let q := cone_sqrt_arg z1 z2 axis_angle in
  if Rlt_dec q 0 then Err ValueError
  else
    let e := sqrt q in
    let gamma2 := atan (e / z1) in
    let gamma1 := PI - axis_angle - gamma2 in
    Ok (gamma1 * 2, gamma2 * 2).

(** 38-104: calc_involute_mesh_distance.  [mesh_eq] is the function handed to [root]
    (78-90 for rings, 92-100 otherwise), [mesh_dist] the final line of either branch. *)
Definition mesh_eq (rb1 rb2 ab1 ab2 pitch2 : R) (inside_ring : bool) (backlash a : R) : R :=
  if inside_ring then
    let d1 := rb1 * Rabs ab1 in
    let d2 := rb2 * Rabs ab2 in
    let bl_sign := sign (d2 - d1) in
    tan a - a + (d2 - d1 - backlash / 2 * bl_sign) / (rb2 - rb1)
  else
    let d1 := rb1 * ab1 in
    let d2 := rb2 * (pitch2 / 2 - ab2) in
    a - tan a + (d1 - d2 + backlash / 2) / (rb1 + rb2).
(** gearmath.py 38-104. *)
Definition mesh_dist (rb1 rb2 : R) (inside_ring : bool) (a : R) : R :=
  if inside_ring then (rb2 - rb1) / cos a else (rb1 + rb2) / cos a.

(** 107-156: backlash_from_ax_distance. *)
Definition backlash_from_ax_distance (D rb1 rb2 ab1 ab2 pitch2 : R) (inside_ring : bool) : R :=
  if inside_ring then
    let d1 := rb1 * (- ab1) in
    let d2 := rb2 * (- ab2) in
    let a := acos ((rb2 - rb1) / D) in
    d2 - d1 - (- tan a + a) * (rb2 - rb1)
  else
    let d1 := rb1 * (- ab1) in
    let d2 := rb2 * (pitch2 / 2 + ab2) in
    let a := acos ((rb1 + rb2) / D) in
    d2 - d1 - (- tan a + a) * (rb1 + rb2).

(** 159-213: calc_nominal_mesh_distance. *)
Definition nominal_dist (rp1 rp2 ps1 ps2 module : R) (ring1 ring2 : bool) : R :=
  let ps_mult_2 := if ring1 then -1 else 1 in
  let ps_mult_1 := if ring2 then -1 else 1 in
  rp1 * ps_mult_1 + rp2 * ps_mult_2 + ps1 * ps_mult_1 * module + ps2 * ps_mult_2 * module.

(** 252-257: direction between the centres (x axis of gear 2 when co-axial). *)
Definition center_diff_dir (T1 T2 : gtransform) : vec :=
  let d := vsub (g_center T2) (g_center T1) in
  if Rlt_dec (norm d) (/ 10 ^ 12) then g_x_axis T2 else normalize d.
(** 259-273: contact direction seen from gear 1 and from gear 2. *)
Definition contact1 (T1 T2 : gtransform) (ring1 ring2 : bool) : vec :=
  let d := center_diff_dir T1 T2 in
  if ring1 then d else if ring2 then vopp d else d.
(** gearmath.py 259-273. *)
Definition contact2 (T1 T2 : gtransform) (ring1 ring2 : bool) : vec :=
  let d := center_diff_dir T1 T2 in
  if ring1 then d else vopp d.
(** 216-286: calc_mesh_angle. *)
Definition calc_mesh_angle (T1 T2 : gtransform) (pitch1 pitch2 : R) (ring1 ring2 : bool) : R :=
  let phase_offset := if orb ring1 ring2 then 0 else / 2 in
  let phase_sign := if orb ring1 ring2 then 1 else -1 in
  let angle_of_other := angle_xy (vmat (contact2 T1 T2 ring1 ring2) (g_orient T2)) in
  let target_angle := angle_xy (vmat (contact1 T1 T2 ring1 ring2) (g_orient T1)) in
  let phase_of_other := frac ((g_angle T2 - angle_of_other) / pitch2) in
  target_angle + frac (phase_sign * phase_of_other + phase_offset) * pitch1.

(** 337-343 and 388-394: angle between the axes. *)
Definition angle_ref (gamma1 gamma2 R0 : R) (ring1 ring2 : bool) (offset : R) : R :=
  if ring2 then gamma2 - gamma1 + offset / R0
  else if ring1 then gamma2 - gamma1 - offset / R0
  else gamma1 + gamma2 + offset / R0.

(** 289-351: calc_mesh_orientation. *)
Definition calc_mesh_orientation (ca1 ca2 R0 : R) (T2 : gtransform) (ring1 ring2 : bool)
    (target_dir : vec) (offset : R) : res mat :=
  let td := project_plane target_dir (g_z_axis T2) in
  let tn := if Rlt_dec (norm td) (/ 10 ^ 12) then g_x_axis T2 else normalize td in
  if Req_EM_T ca1 0 then
    if Req_EM_T ca2 0 then Ok (g_orient T2)
    else bind (normalize_r (cross tn (g_z_axis T2))) (fun ax =>
           Ok (mmul (from_rotvec (smul (angle_ref (ca1 / 2) (ca2 / 2) R0 ring1 ring2 offset) ax))
                    (g_orient T2)))
  else bind (normalize_r (cross tn (g_z_axis T2))) (fun ax =>
         Ok (mmul (from_rotvec (smul (angle_ref (ca1 / 2) (ca2 / 2) R0 ring1 ring2 offset) ax))
                  (g_orient T2))).

(** 354-406: calc_bevel_gear_placement_vector ([center_h_2] is computed but not used). *)
Definition bevel_placement (target_dir : vec) (cone1 cone2 : conic) (ring1 ring2 : bool)
    (offset : R) : res vec :=
  if Req_EM_T (sin (gamma cone1)) 0 then Err ZeroDivisionError
  else if Req_EM_T (sin (gamma cone2)) 0 then Err ZeroDivisionError
  else
    let R0 := c_R cone1 in
    bind (normalize_r (cross target_dir (t_z_axis (c_trf cone2)))) (fun ax =>
      let rot1 := from_rotvec (smul (angle_ref (gamma cone1) (gamma cone2) R0 ring1 ring2 offset) ax) in
      let center_h_1 := R0 * cos (gamma cone1) in
      Ok (vadd (c_center cone2) (mapp rot1 (smul (- center_h_1) (t_z_axis (c_trf cone2)))))).
