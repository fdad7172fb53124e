(** Model of the reference-curve recipe and of the class Gear in src/gggears/gggears_core.py
    (851-946 and 1005-1091).  The tooth generator stored in the recipe is not part of this file;
    a gear is represented by the data its placement and its slices depend on. *)
From Coq Require Import Reals Lra.
From Verif Require Import Num Vec Transform Params Coords GearMath Curve.
Open Scope R_scope.

(** RecipeKeyParams, gggears_base_classes.py 638-652: [h] is the height, [center] is [h * OUT]. *)
Record key_params : Type := mkKP { kp_gamma : R; kp_h : R; kp_angle : R; kp_radius : R; kp_beta : R }.
(** gggears_base_classes.py 646-648. *)
Definition kp_center (k : key_params) : vec := smul (kp_h k) OUT.

(** gggears_core.py 1076-1091: ref_curve_2_param. *)
Definition ref_curve_2_param (t : R) (ref_curve : R -> vec) : key_params :=
  let p0 := ref_curve t in
  let polar_res := xyz_to_cylindrical p0 ORIGIN in
  let radius := vx polar_res in
  let center := smul (vz polar_res) OUT in
  let angle := vy polar_res in
  let diff := vsub (xyz_to_cylindrical (ref_curve (t + DELTA)) ORIGIN)
                   (xyz_to_cylindrical (ref_curve (t - DELTA)) ORIGIN) in
  let gam := arctan2 (- vx diff) (vz diff) in
  let beta := arctan2 (vy diff * radius) (sqrt (vz diff * vz diff + vx diff * vx diff)) in
  mkKP gam (vz center) angle radius beta.

(** 863-864, 873-879 and 889-895: the transform of the slice at height z (scalefunc, centerfunc, anglefunc;
    the orientation is the default of GearTransformRecipe). *)
Definition curve_slice (N : R) (ref_curve : R -> vec) (scaler : R -> R) (z : R) : gtransform :=
  let k := ref_curve_2_param (scaler z) ref_curve in
  mkG (kp_center k) UNIT3X3 (kp_radius k / (N / 2)) (kp_angle k).

(** 866-871 (gammafunc) and 882, 888: the full cone angle of the slice. *)
Definition curve_cone_angle (rounding : R) (ref_curve : R -> vec) (scaler : R -> R) (z : R) : R :=
  let gam := kp_gamma (ref_curve_2_param (scaler z) ref_curve) in
  (if Req_EM_T rounding 0 then gam else IZR (roundZ (gam / rounding)) * rounding) * 2.

(** 928-933: the reference line of Gear.__init__; [L = z_vals[-1] - z_vals[0]] and [g] is
    [cone.gamma]. *)
Definition gear_scaler (L z : R) : R := z / L.
(** gggears_core.py 928-933. *)
Definition gear_p0 (N : R) : vec := smul (/ 2) (smul N RIGHT).
(** gggears_core.py 928-933. *)
Definition gear_p1 (N g L : R) : vec := vadd (gear_p0 N) (mapp (roty (- g)) (smul L OUT)).
(** gggears_core.py 928-933. *)
Definition gear_ref_curve (N g L : R) : R -> vec :=
  c_eval (line_curve (gear_p0 N) (gear_p1 N g L) true).

(** 900-946: a Gear built without a shape recipe: tooth parameters, module, placement, half cone
    angle given by the user, height. *)
Record cgear : Type := mkCG {
  cg_teeth : tooth_param; cg_module : R; cg_trf : gtransform; cg_gamma : R; cg_height : R }.

(** 944-945: the default transform has the module as its scale. *)
Definition cg_make (tp : tooth_param) (module gam L : R) : cgear :=
  mkCG tp module (mkG ORIGIN UNIT3X3 module 0) gam L.

(** [shape_recipe(z)]: transform and cone of the slice; 937-939 put back an exact 0. *)
Definition cg_slice (c : cgear) (z : R) : gtransform :=
  curve_slice (num_teeth (cg_teeth c))
    (gear_ref_curve (num_teeth (cg_teeth c)) (cg_gamma c) (cg_height c)) (gear_scaler (cg_height c)) z.
(** gggears_core.py 935-947. *)
Definition cg_cone_angle (c : cgear) (z : R) : R :=
  if Req_EM_T (cg_gamma c) 0 then 0
  else curve_cone_angle DELTA
         (gear_ref_curve (num_teeth (cg_teeth c)) (cg_gamma c) (cg_height c)) (gear_scaler (cg_height c)) z.

(** 948-951 (cone): the cone of the slice at z = 0, with the default transform. *)
Definition cg_cone (c : cgear) : conic :=
  mkC (cg_cone_angle c 0) (num_teeth (cg_teeth c) / 2) t_default.
(** 953-955: rp. *)
Definition cg_rp (c : cgear) : R := num_teeth (cg_teeth c) / 2 * cg_module c.
(** 957-959: R. *)
Definition cg_R (c : cgear) : R := c_R (cg_cone c) * cg_module c.
(** 973-978: center_sphere. *)
Definition cg_center_sphere (c : cgear) : vec :=
  vadd (g_center (cg_trf c)) (smul (cg_R c * cos (gamma (cg_cone c))) (g_z_axis (cg_trf c))).
(** 997-1003: cone_at_z. *)
Definition cg_cone_at_z (c : cgear) (z : R) : conic :=
  mkC (cg_cone_angle c z) (num_teeth (cg_teeth c) / 2) (g_base (g_mul (cg_trf c) (cg_slice c z))).

(** gggears_core.py 1030-1073: the same gear with another transform. *)
Definition cg_with (c : cgear) (T : gtransform) : cgear :=
  mkCG (cg_teeth c) (cg_module c) T (cg_gamma c) (cg_height c).
(** gggears_core.py 1030-1073: storing centre and orientation. *)
Definition cg_place (c : cgear) (center : vec) (orient : mat) : cgear :=
  cg_with c (mkG center orient (g_scale (cg_trf c)) (g_angle (cg_trf c))).
(** gggears_core.py 1030-1073: storing the angle. *)
Definition cg_turn (c : cgear) (a : R) : cgear :=
  cg_with c (mkG (g_center (cg_trf c)) (g_orient (cg_trf c)) (g_scale (cg_trf c)) a).

(** 1030-1073: Gear.mesh_to.  The result is the gear moved. *)
Definition cg_mesh_to (c o : cgear) (target_dir : vec) : res cgear :=
  let i1 := inside_teeth (cg_teeth c) in let i2 := inside_teeth (cg_teeth o) in
  let turn c1 := cg_turn c1 (calc_mesh_angle (cg_trf c1) (cg_trf o)
                   (tp_pitch_angle (cg_teeth c)) (tp_pitch_angle (cg_teeth o)) i1 i2) in
  let bevel :=
    bind (bevel_placement target_dir (cg_cone c) (cg_cone o) i1 i2 0) (fun v0 =>
    bind (calc_mesh_orientation (cg_cone_angle c 0) (cg_cone_angle o 0) (c_R (cg_cone c)) (cg_trf o)
            i1 i2 target_dir 0) (fun ori =>
    Ok (turn (cg_place c v0 ori)))) in
  let planar :=
    let distance := if orb i1 i2 then Rabs (cg_rp c - cg_rp o) else cg_rp c + cg_rp o in
    let v0 := vadd (smul distance target_dir) (g_center (cg_trf o)) in
    Ok (turn (cg_place c v0 (g_orient (cg_trf o)))) in
  if Req_EM_T (cg_cone_angle c 0) 0 then
    if Req_EM_T (cg_cone_angle o 0) 0 then planar else bevel
  else bevel.
