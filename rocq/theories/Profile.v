(** Assembly of the tooth profile: gggears_core.py 342-428 (GearRefProfile, GearRefProfileExtended),
    435-577 (trim_reference_profile), 653-798 (extensions, closed profile, boundary).

    The flank is a [node] (a curve or a chain).  Objects shared between the parts are values here;
    the one effect of sharing that matters, the refresh of the flank and of its mirror image by the
    first chain built from them, is written out in [assemble].  An exception inside the function of
    a mirrored or rotated curve is replaced by the value ORIGIN; flanks of the theorems raise none. *)
From Coq Require Import Reals List ZArith Lra Bool.
From Verif Require Import Num Vec Transform Params Coords Interp Curve Chain RefLines.
Import ListNotations.
Open Scope R_scope.

(** Value of a curve object as used by a transformed curve (curve.py 1481). *)
Definition n_point (n : node) (t : R) : vec := match n_eval n t with Ok p => p | Err _ => ORIGIN end.
(** TransformedCurve, MirroredCurve, RotatedCurve on any curve object, curve.py 1463-1527. *)
Definition n_transformed (f : vec -> vec) (n : node) : curve :=
  new_curve (SGen (fun t => f (n_point n t))) (n_active n) 0 1 NDIV.
(** curve.py 1491-1510. *)
Definition n_mirrored (n : node) (plane_normal center : vec) : curve :=
  n_transformed (mirror_func (normalize plane_normal) center) n.
(** curve.py 1513-1527. *)
Definition n_rotated (n : node) (angle : R) (axis center : vec) : curve :=
  n_transformed (rotate_func (normalize axis) angle center) n.

(** ** Numerical solvers: arbitrary functions of their inputs.
    [sv_meet] is find_curve_intersect (curve.py 698-716): success flag and the two parameters;
    [sv_plane] the parameter found by find_curve_plane_intersect (727-740);
    [sv_low] the parameter minimising the distance to the z axis (core 519-521). *)
Inductive imethod : Type := EQUALITY | MINDISTANCE.
(** curve.py 698-754. *)
Record solver : Type := mkSv {
  sv_meet : imethod -> node -> curve -> R -> R -> bool * R * R;
  sv_plane : node -> vec -> R -> R;
  sv_low : node -> R -> R }.

(** Comparison [a < b] of two numbers, as used in gggears_core.py 435-577. *)
Definition lt_b (a b : R) : bool := if Rlt_dec a b then true else false.

(** core 445-470: the tip end of the flank. *)
Definition trim_tip (sv : solver) (tooth : node) (ra : curve) (tip_fillet pitch : R) : res node :=
  if Rlt_dec 0 tip_fillet then Ok tooth
  else
    let g := - pitch / 8 / c_length ra in
    let s1 := sv_meet sv EQUALITY tooth ra (9 / 10) g in
    let '(ok, x0, x1) := if fst (fst s1) then s1 else sv_meet sv MINDISTANCE tooth ra (9 / 10) g in
    bind (n_eval tooth x0) (fun p =>
      if (ok || lt_b (norm (vsub p (c_eval ra x1))) (/ 100000)) && lt_b (vy p) 0
      then n_set_end false tooth x0
      else n_set_end false tooth (sv_plane sv tooth UP 1)).

(** core 472-525: the root end.  [solcheck2] is computed from the first solution (491-496). *)
Definition trim_root (sv : solver) (tooth : node) (rd : curve) (root_fillet pitch : R) : res node :=
  if Rlt_dec 0 root_fillet then Ok tooth
  else
    let g := - pitch / 2 / c_length rd in
    let '(ok1, a0, a1) := sv_meet sv EQUALITY tooth rd (3 / 10) g in
    bind (n_eval tooth a0) (fun pa =>
      let check := norm (vsub pa (c_eval rd a1)) in
      let '(ok2, b0, b1) := sv_meet sv MINDISTANCE tooth rd 0 g in
      let '(ok, x0) :=
        if ok1 then (true, a0)
        else if ok2 || lt_b check (/ 100000) then (ok2, b0) else (false, a0) in
      bind (n_eval tooth x0) (fun p =>
        if (ok || lt_b check (/ 100000)) && lt_b (- pitch / 2) (arctan2 (vy p) (vx p))
        then n_set_start false tooth x0
        else
          let guess := if ok || lt_b check (/ 100000) then x0 else / 10 in
          let mid := sv_plane sv tooth (rotate_vector UP (- pitch / 2)) guess in
          let bot := sv_low sv tooth mid in
          n_set_start false tooth (if Rlt_dec mid bot then bot else mid))).

(** GearRefProfile, core 342-355. *)
Record profile : Type := mkPr {
  pr_ra : curve; pr_rd : curve; pr_ro : curve; pr_tooth : node; pr_mirror : curve;
  pr_pitch : R; pr_trf : gtransform }.
(** GearRefProfile.profile, core 357-361. *)
Definition pr_chain (p : profile) : node :=
  new_chain true [Prim (pr_rd p); pr_tooth p; Prim (pr_ra p); Prim (pr_mirror p)].

(** curve.py 1106-1131: the attribute [radius]. *)
Definition arc_radius (c : curve) : R := match c_shape c with SArc r _ _ _ => r | _ => 0 end.
(** curve.py 1106-1131: the attribute [center]. *)
Definition arc_center (c : curve) : vec := match c_shape c with SArc _ _ ce _ => ce | _ => ORIGIN end.

(** core 533, 547: [((a + b) / 2 * [0, 0, 1]) * OUT]. *)
Definition axis_center (a b : vec) : vec := V 0 0 ((vz a + vz b) / 2).
(** core 534-543, 548-557: the arc between two ends, or an inactive placeholder. *)
Definition closing_arc (p q : vec) (center : vec) (radius yaw : R) : curve :=
  if Rlt_dec (/ 10000000000) (norm (vsub p q)) then from_2_point_center p q center 0 true
  else arc_curve radius 0 center yaw 0 0 false.

(** core 527-528: the mirror image, running from tip to root. *)
Definition flank_mirror (tooth : node) : curve := c_reverse (n_mirrored tooth UP ORIGIN).
(** curve.py 374-377: [update_lengths] of a chain on one member. *)
Definition refresh_curve (c : curve) : curve := if c_act c then update_lengths c else c.

(** core 527-577. *)
Definition assemble (tooth : node) (rc : ref_circles) (pitch : R) : res profile :=
  let mirror := flank_mirror tooth in
  let rotate := n_rotated (Prim mirror) (- pitch) OUT ORIGIN in
  bind (n_eval tooth 1) (fun pa1 =>
  let pa2 := c_eval mirror 0 in
  let ra := closing_arc pa1 pa2 (axis_center pa1 pa2) (arc_radius (rc_a rc)) (arctan2 (vy pa1) (vx pa1)) in
  bind (n_eval tooth 0) (fun pd1 =>
  let pd2 := c_eval rotate 1 in
  let rd := closing_arc pd2 pd1 (axis_center pd1 pd2) (arc_radius (rc_d rc)) (arctan2 (vy pd1) (vx pd1)) in
  let tooth' := refresh tooth in
  let mirror' := refresh_curve (flank_mirror tooth') in
  let chain := new_chain true [Prim rd; tooth'; Prim ra; Prim mirror'] in
  bind (n_eval chain 0) (fun p0 =>
  bind (n_eval chain 1) (fun p1 =>
  let a0 := arctan2 (vy p0) (vx p0) in
  let a1 := arctan2 (vy p1) (vx p1) in
  let ro := arc_curve (arc_radius (rc_o rc)) (a1 - a0) (arc_center (rc_o rc)) a0 0 0 true in
  Ok (mkPr ra rd ro tooth' mirror' pitch g_default))))).

(** core 435-577: trim_reference_profile. *)
Definition trim_flank (sv : solver) (tooth : node) (rc : ref_circles) (tipf rootf pitch : R) : res node :=
  bind (trim_tip sv tooth (rc_a rc) tipf pitch) (fun t => trim_root sv t (rc_d rc) rootf pitch).
(** gggears_core.py 435-577. *)
Definition trim_reference_profile (sv : solver) (tooth : node) (rc : ref_circles) (tipf rootf pitch : R) :
  res profile :=
  bind (trim_flank sv tooth rc tipf rootf pitch) (fun t => assemble t rc pitch).

(** ** Extensions, core 364-428, 653-720; [mid] is the parameter found on the outside arc, [ca] and
    [apex] the cone angle and the cone centre. *)
Record ext_profile : Type := mkExt {
  ex_base : profile;
  ex_ro0 : curve; ex_ro1 : curve; ex_ro2 : curve; ex_rd : curve; ex_ra : curve;
  ex_ro_tooth : curve; ex_ro_dedendum : curve }.
(** core 676-699: a connector. *)
Definition connector (ca : R) (apex p q : vec) : curve :=
  if Req_EM_T ca 0 then line_curve p q true else from_2_point_center p q apex 0 true.
(** gggears_core.py 650-720. *)
Definition generate_profile_extensions (p : profile) (ca : R) (apex : vec) (mid : R) : res ext_profile :=
  bind (n_eval (pr_tooth p) 0) (fun t0 =>
  bind (n_eval (pr_chain p) 0) (fun p0 =>
  let m1 := c_eval (pr_mirror p) 1 in
  Ok (mkExt p
    (connector ca apex (c_eval (pr_ro p) 0) p0)
    (connector ca apex (c_eval (pr_ro p) mid) t0)
    (connector ca apex (c_eval (pr_ro p) 1) m1)
    (from_2_point_center t0 m1 (arc_center (pr_rd p)) 0 true)
    (from_2_point_center (rotate_vector (c_eval (pr_ra p) 1) (- pr_pitch p)) (c_eval (pr_ra p) 0)
       (arc_center (pr_ra p)) 0 true)
    (set_start_on (pr_ro p) mid) (set_end_on (pr_ro p) mid)))).

(** core 378-390. *)
Definition profile_closed (e : ext_profile) : node :=
  let p := ex_base e in
  new_chain true [Prim (pr_rd p); pr_tooth p; Prim (pr_ra p); Prim (pr_mirror p);
    Prim (c_reverse (ex_ro2 e)); Prim (c_reverse (pr_ro p)); Prim (ex_ro0 e)].
(** core 392-401. *)
Definition tooth_profile_closed (e : ext_profile) : node :=
  let p := ex_base e in
  new_chain true [pr_tooth p; Prim (pr_ra p); Prim (pr_mirror p); Prim (c_reverse (ex_rd e))].
(** core 403-415. *)
Definition tooth_profile_closed_outer (e : ext_profile) : node :=
  let p := ex_base e in
  new_chain true [Prim (n_rotated (Prim (pr_mirror p)) (- pr_pitch p) OUT ORIGIN);
    Prim (pr_rd p); pr_tooth p; Prim (ex_ra e)].
(** core 417-428. *)
Definition tooth_profile_closed_ring (e : ext_profile) : node :=
  let p := ex_base e in
  new_chain true [pr_tooth p; Prim (ex_ra e); Prim (pr_mirror p); Prim (ex_ro2 e);
    Prim (c_reverse (ex_ro_tooth e)); Prim (c_reverse (ex_ro1 e))].

(** core 723-751: generate_profile_closed. *)
Definition generate_profile_closed (p : profile) (ca : R) (apex : vec) : res node :=
  bind (n_eval (pr_chain p) 0) (fun p0 => bind (n_eval (pr_chain p) 1) (fun p1 =>
  Ok (new_chain true [pr_chain p; Prim (connector ca apex p1 (c_eval (pr_ro p) 1));
        Prim (c_reverse (pr_ro p)); Prim (connector ca apex (c_eval (pr_ro p) 0) p0)]))).

(** ** Boundary *)
(** core 754-772: generate_boundary_chain. *)
Definition boundary_member (p : profile) (pitch : R) (i : nat) : curve :=
  n_transformed (fun q => apply_gear_transform q (pr_trf p))
    (Prim (n_rotated (pr_chain p) (INR i * pitch) OUT ORIGIN)).
(** gggears_core.py 754-772. *)
Definition generate_boundary_chain (p : profile) (pitch : R) (n : nat) : node :=
  new_chain true (map (fun i => Prim (boundary_member p pitch i)) (seq 0 n)).

(** core 780-786: the function of generate_boundary for [n] teeth. *)
Definition boundary_fun (p : profile) (pitch n : R) (t : R) : vec :=
  mapp (rotz (IZR (floorZ (t * n)) * pitch)) (n_point (pr_chain p) (t * n - IZR (floorZ (t * n)))).
(** A Python number is an int or a float; np.linspace raises TypeError for a float count. gggears_core.py 775-794. *)
Inductive pynum : Type := PyInt (z : Z) | PyFloat (x : R).
(** core 788-794: the curve; [lenght_approx_ndiv = num_teeth * 20]. *)
Definition generate_boundary (p : profile) (num_teeth : pynum) (pitch n : R) : res curve :=
  match num_teeth with
  | PyInt z => Ok (new_curve (SGen (boundary_fun p pitch n)) true 0 1 (Z.to_nat (z * 20)))
  | PyFloat _ => Err TypeError
  end.
