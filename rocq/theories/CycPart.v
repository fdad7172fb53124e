(** Profile and part of a cylindrical CycloidGear: gggears_wrapper.py 1682-1791 (calc_params, build_part) with gearteeth.py 585-628
    (generate_cycloid_curve with cone_angle = 0), gggears_core.py 599-650 and 980-981 (curve_gen_at_z), gggears_convert.py 91-107.

    The gear is that of Cycloid.v.  The faces are those of Faces.v, as for involute gears (Part.v). *)
From Coq Require Import Reals ZArith List Bool Arith.
From Verif Require Import Num Vec Coords Transform Params Interp Curve Chain GearMath Tooth Wrapper Info RefLines Profile Build Cycloid Convert
  Fillet Teeth Report Faces Part.
Import ListNotations.
Open Scope R_scope.

Section CycPart.
  (** The solvers of Profile.v and Fillet.v; [top up] is [sol.x\[0\]] of gearteeth.py 620-625, the place where the upper curve meets the
      symmetry plane of the tooth, looked for from the place nearest to the outermost point of the rolling circle; [mid] as in Part.v. *)
  Variables (sv : solver) (fs : fsolver) (top : curve -> R) (mid : profile -> R).
  Variables (optC : curve -> arr2 -> arr1) (optS : arr3 -> arr1).

  (** The tooth curve at the height [z], wrapper 1715-1721 with gearteeth.py 585-628; the rolling circles do not depend on [z]. *)
  Definition cg_tooth (g : cgear) (z : R) : node :=
    let rp := k_rp (cg_core g) in
    cyc_tooth rp (cg_rin g) (cg_rout g) (cg_pia g z) (top (cyc_upper rp (cg_rout g) (cg_pia g z))).
  (** core 980-981 (curve_gen_at_z) of the recipe of wrapper 1731-1750. *)
  Definition cg_profile (g : cgear) (z : R) : res profile :=
    let k := cg_core g in let p := cg_in g in
    generate_reference_profile sv fs (cg_tooth g z) (k_rp k) (k_ha k) (k_hd k) (k_ho k) (k_cone k) (k_rp k)
      (cp_tip_fillet p) (cp_root_fillet p) (cp_tip_trunc p) (2 * PI / cp_teeth p) (k_slice k z).
  (** gggears_convert.py 100-104 and gggears_core.py 430-432, see [gear_section] of Part.v. *)
  Definition cg_section (g : cgear) (z : R) : res cv_profile :=
    let k := cg_core g in
    bind (cg_profile g z) (fun p =>
    bind (generate_profile_extensions p (k_cone k) (c_center (k_recipe_cone k)) (mid p)) (fun e => Ok (cv_of_ext e))).
  (** gggears_convert.py 91-107. *)
  Definition cg_section_at (g : cgear) (z : R) : cv_profile :=
    match cg_section g z with
    | Ok p => p
    | Err _ => let c := CPlain dummy_curve in Convert.mkCP [] c c c c c
    end.
  (** gggears_build123d.py 58-88 for cone angle 0, see [build_gear] of Part.v. *)
  Definition cg_build (g : cgear) (nhz nv : nat) : res cylinder :=
    let k := cg_core g in let zs := k_zvals k in
    bind (res_map (res_map (cg_section g)) (z_stacks zs (n_z_tweens nv 3))) (fun _ =>
    build_cylinder optC optS nhz nv 3 (cg_section_at g) (k_slice k) (num_teeth_act (k_tooth k)) (num_teeth (k_tooth k))
      (tp_pitch_angle (k_tooth k)) (inside_teeth (k_tooth k)) (k_ho k) zs).
  (** wrapper 1764-1785: [n_vert] of build_part() for the gear. *)
  Definition cg_layers (g : cgear) : nat :=
    let p := cg_in g in let k := cg_core g in
    n_vert_cycloid (cp_helix p) (cp_cone p) (cp_crown p) (twist_of (k_zvals k) (fun z => z * k_spiral k)).
  (** CycloidGear.build_part() without arguments, wrapper 1758-1791. *)
  Definition cg_build_part (g : cgear) : res cylinder := cg_build g 4 (cg_layers g).
End CycPart.
