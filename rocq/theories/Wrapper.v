(** Model of src/gggears/gggears_wrapper.py: parameters, construction and placement of
    InvoluteGear (290-745) with GearInfoMixin (20-290).  What build123d does is not modelled.
    Values of scipy's [root] are parameters (see GearMath.v, Tooth.v). *)
From Coq Require Import Reals Lra List.
From Verif Require Import Num Vec Transform Params Coords Gen Curve Chain GearMath Tooth.
Import ListNotations.
Open Scope R_scope.

(** 289-310: InvoluteInputParam. *)
Record iparam : Type := mkIP {
  ip_teeth : R; ip_height : R; ip_helix : R; ip_cone : R; ip_center : vec; ip_angle : R;
  ip_module : R; ip_undercut : bool; ip_root_fillet : R; ip_tip_fillet : R; ip_tip_trunc : R;
  ip_shift : R; ip_add : R; ip_ded : R; ip_alpha : R; ip_backlash : R; ip_crown : R;
  ip_inside : bool; ip_zanchor : R }.

(** 428-430: a negative tooth number means a ring gear. *)
Definition ip_normalise (p : iparam) : iparam :=
  if Rlt_dec (ip_teeth p) 0 then
    mkIP (- ip_teeth p) (ip_height p) (ip_helix p) (ip_cone p) (ip_center p) (ip_angle p)
      (ip_module p) (ip_undercut p) (ip_root_fillet p) (ip_tip_fillet p) (ip_tip_trunc p)
      (ip_shift p) (ip_add p) (ip_ded p) (ip_alpha p) (ip_backlash p) (ip_crown p)
      (negb (ip_inside p)) (ip_zanchor p)
  else p.

(** What calc_params (490-592) stores in [self.gearcore].  [k_gamma], [k_rp], [k_tooth_angle],
    [k_spiral] are the values captured by the closures; height and crowning are read from
    [self.inputparam] when a closure runs, the tooth number of [k_scale] from the tooth data. *)
Record core : Type := mkCore {
  k_tooth : tooth_param; k_module : R; k_zvals : list R; k_cone : R;
  k_gamma : R; k_rp : R; k_tooth_angle : R; k_spiral : R;
  k_hd : R; k_ha : R; k_ho : R; k_alpha : R;
  k_trf : gtransform }.

(** gggears_wrapper.py 312-592. *)
Record igear : Type := mkIG { ig_in : iparam; ig_core : core }.

(** 490-592: calc_params. *)
Definition calc_params (p : iparam) : core :=
  let rp_ref := ip_teeth p / 2 in
  let pitch_angle := 2 * PI / ip_teeth p in
  let z_h := ip_height p / ip_module p in
  mkCore
    (tp_make (ip_teeth p) 0 (ip_inside p))
    (ip_module p)
    [- z_h * ip_zanchor p; z_h * (1 - ip_zanchor p)]
    (ip_cone p)
    (ip_cone p / 2)
    rp_ref
    (pitch_angle / 4 + ip_shift p * tan (ip_alpha p) / rp_ref - ip_backlash p / rp_ref)
    (tan (ip_helix p) / rp_ref)
    (ip_ded p - ip_shift p)
    (ip_add p + ip_shift p)
    (if ip_inside p then -2 else 2)
    (ip_alpha p)
    (mkG (ip_center p) UNIT3X3 (ip_module p) (ip_angle p)).

(** 385-435: InvoluteGear.__init__. *)
Definition ig_new (p : iparam) : igear :=
  let q := ip_normalise p in mkIG q (calc_params q).

(** 498-505: crowning_func. *)
Definition crowning (height crown rp_ref z offset : R) : R :=
  offset - (z * 2 / height - 1) * (z * 2 / height - 1) * crown / rp_ref * / 1000.
(** pitch_intersect_angle of the slice at z (525). *)
Definition ig_pia (g : igear) (z : R) : R :=
  crowning (ip_height (ig_in g)) (ip_crown (ig_in g)) (k_rp (ig_core g)) z
           (k_tooth_angle (ig_core g)).
(** 580-585: transform of the slice at z. *)
Definition k_slice (k : core) (z : R) : gtransform :=
  mkG (smul (cos (k_gamma k)) (smul (1 * z) OUT)) UNIT3X3
      (1 - z * 2 * sin (k_gamma k) / num_teeth (k_tooth k)) (z * k_spiral k).

(** 26-65: number_of_teeth, pitch_radius, cone_data; 168-172 pitch_angle. *)
Definition k_pitch_radius (k : core) : R := num_teeth (k_tooth k) * k_module k / 2.
(** gggears_wrapper.py 169-172. *)
Definition k_pitch_angle (k : core) : R := tp_pitch_angle (k_tooth k).
(** gggears_wrapper.py 55-63. *)
Definition k_cone_data (k : core) : conic :=
  mkC (k_cone k) (k_pitch_radius k / k_module k) (g_base (k_trf k)).
(** gggears_core.py 950-951 (Gear.cone: the recipe's cone, default transform). *)
Definition k_recipe_cone (k : core) : conic := mkC (k_cone k) (k_rp k) t_default.

(** 469-482 and 451-455: circle_involute_base(z).radius and r_base.  [ArcCurve.transform] takes
    the distance of the transformed start point and centre (curve.py 1308-1315, 1258-1276). *)
Definition ig_base_circle_radius (g : igear) (z : R) : R :=
  let k := ig_core g in
  let trf := g_mul (k_trf k) (k_slice k z) in
  let r := base_radius_of (k_rp k) (k_alpha k) in
  norm (vsub (apply_gear_transform (smul r RIGHT) trf) (apply_gear_transform ORIGIN trf)).
(** Linear interpolation between the first two sections, 477 and 235-236. *)
Definition k_p2z (k : core) (ratio : R) : R :=
  ratio * nth 1 (k_zvals k) 0 + (1 - ratio) * nth 0 (k_zvals k) 0.
(** gggears_wrapper.py 451-455. *)
Definition ig_r_base (g : igear) : R := ig_base_circle_radius g (k_p2z (ig_core g) 0).
(** 457-467: angle_base (recipe evaluated at z = 0). *)
Definition ig_angle_base (g : igear) (s2 : R) : R :=
  base_angle (k_rp (ig_core g)) (k_alpha (ig_core g)) (ig_pia g 0) s2.

(** gggears_wrapper.py 641-716: the same core with another transform. *)
Definition with_trf (k : core) (T : gtransform) : core :=
  mkCore (k_tooth k) (k_module k) (k_zvals k) (k_cone k) (k_gamma k) (k_rp k) (k_tooth_angle k)
    (k_spiral k) (k_hd k) (k_ha k) (k_ho k) (k_alpha k) T.
(** gggears_wrapper.py 641-716: storing a new placement. *)
Definition ig_place (g : igear) (T : gtransform) : igear := mkIG (ig_in g) (with_trf (ig_core g) T).

(** 641-716: mesh_to.  [sg], [so] are the tooth solver values of the two gears, [a] the mesh
    solver value. *)
Definition ig_mesh_to (g o : igear) (sg so a : R) (target0 : vec) (backlash bias : R) : res igear :=
  bind (normalize_r target0) (fun target =>
  let kg := ig_core g in let ko := ig_core o in
  let T := k_trf kg in let To := k_trf ko in
  let bevel :=
    bind (bevel_placement target (k_cone_data kg) (k_cone_data ko)
            (ip_inside (ig_in g)) (ip_inside (ig_in o)) 0) (fun v0 =>
    bind (calc_mesh_orientation (k_cone kg) (k_cone ko) (c_R (k_recipe_cone kg)) To
            (ip_inside (ig_in g)) (ip_inside (ig_in o)) target 0) (fun ori =>
    let T1 := mkG v0 ori (g_scale T) (g_angle T) in
    let ang := calc_mesh_angle T1 To (k_pitch_angle kg) (k_pitch_angle ko)
                 (inside_teeth (k_tooth kg)) (inside_teeth (k_tooth ko)) in
    Ok (ig_place g (mkG v0 ori (g_scale T) ang)))) in
  let planar :=
    let distance := mesh_dist (ig_r_base g) (ig_r_base o)
                      (orb (inside_teeth (k_tooth kg)) (inside_teeth (k_tooth ko))) a in
    let v0 := vadd (smul distance target) (g_center To) in
    let T1 := mkG v0 (g_orient To) (g_scale T) (g_angle T) in
    let ang := calc_mesh_angle T1 To (k_pitch_angle kg) (k_pitch_angle ko)
                 (inside_teeth (k_tooth kg)) (inside_teeth (k_tooth ko))
               + bias / 2 * backlash / ig_r_base g in
    Ok (ig_place g (mkG v0 (g_orient To) (g_scale T) ang)) in
  if Req_EM_T (k_cone kg) 0 then (if Req_EM_T (k_cone ko) 0 then planar else bevel) else bevel).

(** The equation handed to the mesh solver by mesh_to (696-705). *)
Definition ig_mesh_equation (g o : igear) (sg so backlash a : R) : R :=
  mesh_eq (ig_r_base g) (ig_r_base o) (- ig_angle_base g sg) (- ig_angle_base o so)
    (k_pitch_angle (ig_core o))
    (orb (inside_teeth (k_tooth (ig_core g))) (inside_teeth (k_tooth (ig_core o)))) backlash a.

(** 718-722: reset_location. *)
Definition ig_reset_location (g : igear) : igear :=
  ig_place g (mkG ORIGIN UNIT3X3 (g_scale (k_trf (ig_core g))) 0).
