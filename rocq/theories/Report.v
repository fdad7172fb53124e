(** The reference profile of an involute gear at a height (gggears_wrapper.py 490-592 with gggears_core.py 599-650 and
    980-981), and the reports made from it: GearInfoMixin.radii_data_gen ... cone_angle_limits_top and the locations
    (gggears_wrapper.py 107-150 and 198-286), GearRefCircles.center (gggears_base_classes.py 387-397),
    InvoluteGear.r_base and angle_base (451-482).

    [self.inputparam] is read for the fillets when the gear is made, here when the profile is; the theorems do not change
    it in between.  scipy's solvers are those of Profile.v, Fillet.v and Teeth.v. *)
From Coq Require Import Reals List ZArith Lra Bool.
From Verif Require Import Num Vec Transform Params Coords Interp Curve Chain GearMath Tooth Wrapper Info RefLines Profile Build
  Fillet Teeth.
Import ListNotations.
Open Scope R_scope.

(** wrapper 525-563: the tooth generator chosen, evaluated at the height [z]; [OctoidTooth] is made without limits. *)
Definition ig_tooth (ts : tsolver) (g : igear) (z : R) : res node :=
  let k := ig_core g in
  let pitch_angle := 2 * PI / ip_teeth (ig_in g) in
  let lm := mkLim (k_ha k) (k_hd k) in
  if ip_undercut (ig_in g) then
    if Req_EM_T (k_cone k) 0
    then involute_undercut_tooth ts (k_rp k) (k_alpha k) (ig_pia g z) (k_cone k) pitch_angle (Some lm)
    else octoid_undercut_tooth ts (k_rp k) (k_alpha k) (ig_pia g z) (k_cone k) pitch_angle (Some lm)
  else
    if Req_EM_T (k_cone k) 0
    then Ok (involute_tooth_curve ts (k_rp k) (k_alpha k) (ig_pia g z) (k_cone k))
    else Ok (octoid_tooth ts (k_rp k) (k_alpha k) (ig_pia g z) (k_cone k) None).

(** core 980-981 (curve_gen_at_z) of the recipe of wrapper 564-590. *)
Definition ig_profile (sv : solver) (fs : fsolver) (ts : tsolver) (g : igear) (z : R) : res profile :=
  let k := ig_core g in let p := ig_in g in
  bind (ig_tooth ts g z) (fun tooth =>
  generate_reference_profile sv fs tooth (k_rp k) (k_ha k) (k_hd k) (k_ho k) (k_cone k) (k_rp k)
    (ip_tip_fillet p) (ip_root_fillet p) (ip_tip_trunc p) (2 * PI / ip_teeth p) (k_slice k z)).

(** [ArcCurve(radius=r, center=c, angle=2*PI).transform(trf)]. *)
Definition moved_circle (trf : gtransform) (r : R) (c : vec) : curve :=
  arc_transform (fun q => apply_gear_transform q trf) (c_eval (arc_curve r (2 * PI) c 0 0 0 true) 0) (2 * PI) c
    (euler_zyx 0 0 0) true.

(** wrapper 198-218: radii_data_gen, from the profile of the slice. *)
Definition radii_data (k : core) (p : profile) : ref_circles :=
  let trf := g_mul (k_trf k) (pr_trf p) in
  mkRC (moved_circle trf (arc_radius (pr_ra p)) (arc_center (pr_ra p)))
       (moved_circle trf (num_teeth (k_tooth k) / 2) ORIGIN)
       (moved_circle trf (arc_radius (pr_rd p)) (arc_center (pr_rd p)))
       (moved_circle trf (arc_radius (pr_ro p)) (arc_center (pr_ro p))).
(** gggears_wrapper.py 198-218. *)
Definition ig_circles (sv : solver) (fs : fsolver) (ts : tsolver) (g : igear) (z : R) : res ref_circles :=
  bind (ig_profile sv fs ts g z) (fun p => Ok (radii_data (ig_core g) p)).

(** 241-249: addendum_radius and dedendum_radius. *)
Definition ig_addendum_radius sv fs ts (g : igear) : res R :=
  bind (ig_circles sv fs ts g (k_z_first (ig_core g))) (fun c => Ok (arc_radius (rc_a c))).
(** gggears_wrapper.py 241-249. *)
Definition ig_dedendum_radius sv fs ts (g : igear) : res R :=
  bind (ig_circles sv fs ts g (k_z_first (ig_core g))) (fun c => Ok (arc_radius (rc_d c))).
(** 220-223: radii_data_array. *)
Fixpoint res_map {A B} (f : A -> res B) (l : list A) : res (list B) :=
  match l with
  | [] => Ok []
  | x :: r => bind (f x) (fun y => bind (res_map f r) (fun ys => Ok (y :: ys)))
  end.
(** gggears_wrapper.py 220-223. *)
Definition ig_circles_array sv fs ts (g : igear) : res (list ref_circles) :=
  res_map (ig_circles sv fs ts g) (k_zvals (ig_core g)).
(** 251-256: max_outside_radius; [np.max] of an empty array raises. *)
Definition ig_max_outside_radius sv fs ts (g : igear) : res R :=
  bind (ig_circles_array sv fs ts g) (fun l =>
  match map (fun c => arc_radius (rc_o c)) l ++ map (fun c => arc_radius (rc_a c)) l with
  | [] => Err ValueError
  | x :: r => Ok (fold_left Rmax r x)
  end).

(** 258-276: cone_angles_at_z, in the order outside, dedendum, pitch, addendum; [arcsin] of a number beyond 1 is nan,
    and for a cylindrical gear R is infinite, so that the angles are zero. *)
Definition np_arcsin (x : R) : res R := if Rlt_dec 1 (Rabs x) then Err ZeroDivisionError else Ok (asin x).
(** gggears_wrapper.py 258-276. *)
Definition ig_cone_angles sv fs ts (g : igear) (z : R) : res (list R) :=
  let k := ig_core g in
  bind (ig_circles sv fs ts g z) (fun c =>
  let RR := c_R (k_recipe_cone k) * g_scale (k_slice k z) * g_scale (k_trf k) in
  res_map (fun r => if Req_EM_T (sin (gamma (k_recipe_cone k))) 0 then Ok 0 else np_arcsin (r / RR))
    [arc_radius (rc_o c); arc_radius (rc_d c); arc_radius (rc_p c); arc_radius (rc_a c)]).

(** 107-134: center_location_at_z and its three uses. *)
Definition ig_center_location (g : igear) (z : R) : location := transform2Location (ig_center_transform_at_z g z).
(** 136-150: face_location_top ([z = z_vals[-1]]) and face_location_bottom ([z = z_vals[0]]). *)
Definition ig_face_location sv fs ts (g : igear) (z : R) : res location :=
  bind (ig_circles sv fs ts g z) (fun c => Ok (mkLoc (arc_center (rc_o c)) (loc_rot (ig_center_location g z)))).

(** base_classes 387-397: the centre of the circles and its setter. *)
Definition rc_center (c : ref_circles) : vec := arc_center (rc_p c).
(** gggears_base_classes.py 387-397: assigning the centre of one circle. *)
Definition with_center (v : vec) (c : curve) : curve :=
  match c_shape c with
  | SArc r a _ m => mkCurve (SArc r a v m) (c_act c) (c_t0 c) (c_t1 c) (c_ndiv c) (c_length c) (c_ts c) (c_ss c)
  | _ => c
  end.
(** gggears_base_classes.py 387-397. *)
Definition rc_set_center (c : ref_circles) (v : vec) : ref_circles :=
  mkRC (with_center v (rc_a c)) (with_center v (rc_p c)) (with_center v (rc_d c)) (with_center v (rc_o c)).

(** 469-482: circle_involute_base.  The octoid generators have no [get_base_radius]. *)
Definition ig_base_circle (g : igear) (z_ratio : R) : res curve :=
  let k := ig_core g in let z := k_p2z k z_ratio in
  if Req_EM_T (k_cone k) 0
  then Ok (moved_circle (g_mul (k_trf k) (k_slice k z)) (base_radius_of (k_rp k) (k_alpha k)) ORIGIN)
  else Err AttributeError.
(** 457-467: angle_base. *)
Definition ig_angle_base_res (g : igear) (s2 : R) : res R :=
  if Req_EM_T (k_cone (ig_core g)) 0 then Ok (ig_angle_base g s2) else Err ValueError.
