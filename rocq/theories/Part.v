(** Building the part of a gear: gggears_wrapper.py 594-629 (InvoluteGear.build_part), 1329-1353 (HelicalRingGear.build_part),
    1758-1791 (CycloidGear.build_part), gggears_core.py 430-432 (from_refprofile), gggears_convert.py 91-107
    (generate_gear_stacks) and 287-350 (the curves of a profile that are converted).

    The gear is a [hgear] of Info.v: an involute gear and the function that turns its sections; for InvoluteGear, SpurGear and
    SpurRingGear the angle is that of [k_slice].  The faces are those of Faces.v.  Placing the finished solid
    (gggears_build123d.py 90-92, apply_transform_part) is in Build.v. *)
From Coq Require Import Reals ZArith List Bool Arith.
From Verif Require Import Num Vec Coords Transform Params Interp Curve Chain GearMath Tooth Wrapper Info RefLines Profile Build Convert
  Fillet Teeth Report Faces.
Import ListNotations.
Open Scope R_scope.

(** ** The number of rows of control points *)
(** gggears_wrapper.py 602-622: [n_vert] of InvoluteGear.build_part; [twist] is twist_angle (603-613, [twist_of] of Info.v). *)
Definition n_vert_involute (crown beta cone twist : R) : nat :=
  let other :=
    if Rlt_dec (PI / 6) twist then (3 + Z.to_nat (floorZ (twist / (PI / 6))))%nat
    else if Req_EM_T cone 0 then 3%nat else 4%nat in
  if Req_EM_T crown 0 then if Req_EM_T beta 0 then 2%nat else other else other.
(** gggears_wrapper.py 1331-1347: HelicalRingGear. *)
Definition n_vert_helical_ring (twist : R) : nat :=
  if Rlt_dec twist (PI / 16) then 3%nat else if Rlt_dec twist (PI / 2) then 4%nat else 5%nat.
(** gggears_wrapper.py 1764-1785: CycloidGear. *)
Definition n_vert_cycloid (helix cone crown twist : R) : nat :=
  let other := if Rlt_dec (PI / 4) twist then (3 + Z.to_nat (floorZ (twist / (PI / 4))))%nat else 3%nat in
  if Req_EM_T helix 0 then if Req_EM_T cone 0 then if Req_EM_T crown 0 then 2%nat else other else other else other.

(** The gear as a function of the section angle, gggears_wrapper.py 580-585. *)
Definition as_hgear (g : igear) : hgear := mkH g (fun z => z * k_spiral (ig_core g)).
(** [n_vert] of InvoluteGear.build_part() for a gear, gggears_wrapper.py 602-622. *)
Definition default_layers (h : hgear) : nat :=
  let g := h_gear h in
  n_vert_involute (ip_crown (ig_in g)) (ip_helix (ig_in g)) (k_cone (ig_core g)) (twist_of (k_zvals (ig_core g)) (h_angle h)).

(** ** Sections *)
(** The curves of an extended profile that are converted and used for the faces, gggears_convert.py 287-333 and
    gggears_core.py 357-390. *)
Definition cv_of_ext (e : ext_profile) : cv_profile :=
  let p := ex_base e in
  mkCP (map CPlain (get_curves (pr_tooth p))) (CPlain (pr_ra p)) (CPlain (pr_rd p)) (CPlain (pr_ro p))
    (CPlain (ex_ro0 e)) (CPlain (ex_ro2 e)).
(** The transform of the section at [z], gggears_wrapper.py 580-585 with the angle of the gear (1118-1140). *)
Definition section_trf (h : hgear) (z : R) : gtransform :=
  let S := k_slice (ig_core (h_gear h)) z in mkG (g_center S) (g_orient S) (g_scale S) (h_angle h z).

Section Part.
  (** The solvers; [mid] is the parameter on the outside arc found by generate_profile_extensions (gggears_core.py 659-662). *)
  Variables (sv : solver) (fs : fsolver) (ts : tsolver) (mid : profile -> R).
  Variables (optC : curve -> arr2 -> arr1) (optS : arr3 -> arr1).

  (** One element of a stack: from_refprofile(curve_gen_at_z(z), shape_recipe(z).cone), gggears_convert.py 100-104 and
      gggears_core.py 430-432. *)
  Definition gear_section (h : hgear) (z : R) : res cv_profile :=
    let g := h_gear h in let k := ig_core g in
    bind (ig_profile sv fs ts g z) (fun p =>
    bind (generate_profile_extensions p (k_cone k) (c_center (k_recipe_cone k)) (mid p)) (fun e => Ok (cv_of_ext e))).
  (** The section as a function, where it exists, gggears_convert.py 91-107. *)
  Definition section_at (h : hgear) (z : R) : cv_profile :=
    match gear_section h z with
    | Ok p => p
    | Err _ => let c := CPlain dummy_curve in mkCP [] c c c c c
    end.

  (** GearBuilder(gearcore, n_points_hz, n_points_vert) for cone angle 0 with the default oversampling_ratio = 3,
      gggears_build123d.py 58-88: all sections are made first. *)
  Definition build_gear (h : hgear) (nhz nv : nat) : res cylinder :=
    let k := ig_core (h_gear h) in let zs := k_zvals k in
    bind (res_map (res_map (gear_section h)) (z_stacks zs (n_z_tweens nv 3))) (fun _ =>
    build_cylinder optC optS nhz nv 3 (section_at h) (section_trf h) (num_teeth_act (k_tooth k)) (num_teeth (k_tooth k))
      (tp_pitch_angle (k_tooth k)) (inside_teeth (k_tooth k)) (k_ho k) zs).
  (** InvoluteGear.build_part() without arguments, gggears_wrapper.py 594-629. *)
  Definition build_part (h : hgear) : res cylinder := build_gear h 4 (default_layers h).
End Part.
