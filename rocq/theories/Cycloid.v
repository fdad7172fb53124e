(** Model of CycloidGear (gggears_wrapper.py 1513-1909) and of the planar CycloidTooth
    (gearteeth.py 565-628 with cone_angle = 0).  The value of the plane-intersection solver
    (gearteeth.py 620-625) is a parameter. *)
From Coq Require Import Reals Lra List.
From Verif Require Import Num Vec Transform Params Coords Gen Curve Chain GearMath Tooth Wrapper.
Import ListNotations.
Open Scope R_scope.

(** 1513-1534: CycloidInputParam ([enable_undercut] and [profile_shift] are never read). *)
Record cparam : Type := mkCP {
  cp_teeth : R; cp_height : R; cp_helix : R; cp_cone : R; cp_center : vec; cp_angle : R;
  cp_module : R; cp_root_fillet : R; cp_tip_fillet : R; cp_tip_trunc : R;
  cp_add : R; cp_ded : R; cp_rin : R; cp_rout : R; cp_backlash : R; cp_crown : R;
  cp_inside : bool; cp_zanchor : R }.

(** A cycloid gear: its parameters, the recipe data shared with involute gears (k_alpha is not
    used) and the two rolling circle coefficients copied into the tooth generator. gggears_wrapper.py 1615-1756. *)
Record cgear : Type := mkCG { cg_in : cparam; cg_core : core; cg_rin : R; cg_rout : R }.

(** 1682-1756: calc_params. *)
Definition cyc_calc (p : cparam) : cgear :=
  let rp_ref := cp_teeth p / 2 in
  let pitch_angle := 2 * PI / cp_teeth p in
  let z_h := cp_height p / cp_module p in
  mkCG p
    (mkCore
      (tp_make (cp_teeth p) 0 (cp_inside p))
      (cp_module p)
      [- z_h * cp_zanchor p; z_h * (1 - cp_zanchor p)]
      (cp_cone p) (cp_cone p / 2) rp_ref
      (pitch_angle / 4 - cp_backlash p / rp_ref)
      (tan (cp_helix p) / rp_ref)
      (cp_ded p) (cp_add p) (if cp_inside p then -2 else 2) 0
      (mkG (cp_center p) UNIT3X3 (cp_module p) (cp_angle p)))
    (cp_rin p) (cp_rout p).

(** 1615-1659: __init__. *)
Definition cyc_new (p : cparam) : cgear := cyc_calc p.

(** 1690-1697 and 1717: pitch_intersect_angle of the slice at z. *)
Definition cg_pia (g : cgear) (z : R) : R :=
  crowning (cp_height (cg_in g)) (cp_crown (cg_in g)) (k_rp (cg_core g)) z (k_tooth_angle (cg_core g)).

(** gggears_wrapper.py 1803-1857: storing a new placement. *)
Definition cg_place (g : cgear) (T : gtransform) : cgear :=
  mkCG (cg_in g) (with_trf (cg_core g) T) (cg_rin g) (cg_rout g).

(** 1803-1857: mesh_to.  The target direction is used as it is. *)
Definition cyc_mesh_to (g o : cgear) (target : vec) : res cgear :=
  let kg := cg_core g in let ko := cg_core o in
  let T := k_trf kg in let To := k_trf ko in
  let bevel :=
    bind (bevel_placement target (k_cone_data kg) (k_cone_data ko)
            (cp_inside (cg_in g)) (cp_inside (cg_in o)) 0) (fun v0 =>
    bind (calc_mesh_orientation (k_cone kg) (k_cone ko) (c_R (k_recipe_cone kg)) To
            (cp_inside (cg_in g)) (cp_inside (cg_in o)) target 0) (fun ori =>
    let T1 := mkG v0 ori (g_scale T) (g_angle T) in
    let ang := calc_mesh_angle T1 To (k_pitch_angle kg) (k_pitch_angle ko)
                 (inside_teeth (k_tooth kg)) (inside_teeth (k_tooth ko)) in
    Ok (cg_place g (mkG v0 ori (g_scale T) ang)))) in
  let planar :=
    let distance := if orb (inside_teeth (k_tooth kg)) (inside_teeth (k_tooth ko))
                    then Rabs (k_pitch_radius kg - k_pitch_radius ko)
                    else k_pitch_radius kg + k_pitch_radius ko in
    let v0 := vadd (smul distance target) (g_center To) in
    let T1 := mkG v0 (g_orient To) (g_scale T) (g_angle T) in
    let ang := calc_mesh_angle T1 To (k_pitch_angle kg) (k_pitch_angle ko)
                 (inside_teeth (k_tooth kg)) (inside_teeth (k_tooth ko)) in
    Ok (cg_place g (mkG v0 (g_orient To) (g_scale T) ang)) in
  if Req_EM_T (k_cone kg) 0 then (if Req_EM_T (k_cone ko) 0 then planar else bevel) else bevel.

(** gggears_wrapper.py 1859-1909: assigning the inner rolling radius. *)
Definition with_rin (p : cparam) (x : R) : cparam :=
  mkCP (cp_teeth p) (cp_height p) (cp_helix p) (cp_cone p) (cp_center p) (cp_angle p) (cp_module p)
    (cp_root_fillet p) (cp_tip_fillet p) (cp_tip_trunc p) (cp_add p) (cp_ded p) x (cp_rout p)
    (cp_backlash p) (cp_crown p) (cp_inside p) (cp_zanchor p).
(** gggears_wrapper.py 1859-1909: assigning the outer rolling radius. *)
Definition with_rout (p : cparam) (x : R) : cparam :=
  mkCP (cp_teeth p) (cp_height p) (cp_helix p) (cp_cone p) (cp_center p) (cp_angle p) (cp_module p)
    (cp_root_fillet p) (cp_tip_fillet p) (cp_tip_trunc p) (cp_add p) (cp_ded p) (cp_rin p) x
    (cp_backlash p) (cp_crown p) (cp_inside p) (cp_zanchor p).

(** 1859-1909: adapt_cycloid_radii, for two different gear objects; the new state of both. *)
Definition adapt_cycloid_radii (g o : cgear) : cgear * cgear :=
  let p := cg_in g in let q := cg_in o in
  let zs := num_teeth (k_tooth (cg_core g)) in let zo := num_teeth (k_tooth (cg_core o)) in
  if inside_teeth (k_tooth (cg_core g)) then
    let p1 := with_rin p (cp_rin q / zs * zo) in
    let q1 := with_rout q (cp_rout p1 / zo * zs) in (cyc_calc p1, cyc_calc q1)
  else if inside_teeth (k_tooth (cg_core o)) then
    let p1 := with_rout p (cp_rout q / zs * zo) in
    let q1 := with_rin q (cp_rin p1 / zo * zs) in (cyc_calc p1, cyc_calc q1)
  else
    let p1 := with_rout p (cp_rin q / zs * zo) in
    let q1 := with_rout q (cp_rin p1 / zo * zs) in (cyc_calc p1, cyc_calc q1).

(** gearteeth.py 585-600: the two curves of the planar tooth flank. *)
Definition cyc_lower (rp rin pia : R) : curve :=
  new_curve (SGen (fun t => cycloid_circle t rp (- rin * rp) (- pia) ORIGIN 0)) true (- rin * PI / 2) 0 NDIV.
(** gearteeth.py 585-600. *)
Definition cyc_upper (rp rout pia : R) : curve :=
  new_curve (SGen (fun t => cycloid_circle t rp (rout * rp) (- pia) ORIGIN 0)) true 0 (pia * 2) NDIV.
(** 620-628: [s] is the solver value. *)
Definition cyc_tooth (rp rin rout pia s : R) : node :=
  new_chain true [Prim (cyc_lower rp rin pia); Prim (set_end_on (cyc_upper rp rout pia) s)].
