(** Tooth flank generators: gearteeth.py (InvoluteTooth with a cone 73-125, InvoluteUndercutTooth 128-196, OctoidTooth
    203-265, OctoidUndercutTooth 268-398, rack curves 401-490, undercut curve 493-562, CycloidTooth with a cone 585-628)
    and gggears_base_classes.py 485-635 (default generators and check_lower_curve_limit).

    scipy's [root] and [minimize] are arbitrary functions of their inputs.  The planar involute and cycloid flanks are in
    Tooth.v and Cycloid.v.  NumPy divisions by zero (sin of half the cone angle) are not modelled: they are excluded by
    the hypotheses of the theorems.  The value of [cycloid_cone] outside its domain is replaced by ORIGIN.
    ZFunctionMixin (parameters that are functions of z) is in World.v. *)
From Coq Require Import Reals List ZArith Lra Bool.
From Verif Require Import Num Vec Transform Params Coords Gen Interp Curve Chain RefLines Profile Tooth Cycloid.
Import ListNotations.
Open Scope R_scope.

(** curve.py 698-754.  [ts_meet]: success, [x[0]], [x[1]] of find_curve_intersect; [ts_plane]: success and [x[0]] of
    find_curve_plane_intersect for a normal, an offset and a guess; [ts_root f g]: [root(f, [g]).x[0]]; [ts_min f g]:
    [fun] and [x[0]] of [minimize(f, g)]; [ts_base]: [base_res.x] of gearteeth.py 93-97 for the pitch radius, the
    pressure angle and the sphere radius. *)
Record tsolver : Type := mkTs {
  ts_meet : imethod -> node -> curve -> R -> R -> bool * R * R;
  ts_plane : imethod -> node -> vec -> vec -> R -> bool * R;
  ts_root : (R -> R) -> R -> R;
  ts_min : (R -> R) -> R -> R * R;
  ts_base : R -> R -> R -> R * R }.

(** A number used as offset is subtracted from every coordinate (NumPy broadcasting, curve.py 733). *)
Definition splat (x : R) : vec := V x x x.

(** The fields of ToothLimitParam that are used (base_classes 328-343). *)
Record limits : Type := mkLim { lm_ha : R; lm_hd : R }.
(** gggears_base_classes.py 327-343. *)
Definition default_limits : limits := mkLim 1 (12 / 10).

(** ** Rack flanks *)
(** gearteeth.py 409-416 and 455-462. *)
Definition plane_rack (rp pia alpha : R) (lm : limits) : curve :=
  let p0 := vadd (smul rp RIGHT) (smul (rp * pia) DOWN) in
  let d := mapp (rotz alpha) RIGHT in
  line_curve (vsub p0 (smul (/ vx d) (smul (lm_hd lm) d))) (vadd p0 (smul (/ vx d) (smul (lm_ha lm) d))) true.
(** ConicData(cone_angle, base_radius).R, base_classes 469-478. *)
Definition sphere_R (rp cone : R) : R := Rabs (rp / sin (cone / 2)).
(** 417-435.  Assigning [rotmat] stores the matrix itself (curve.py 1199-1205). *)
Definition cone_flat_rack (rp pia alpha cone : R) (lm : limits) : curve :=
  let RR := sphere_R rp cone in
  let c := arc_curve RR ((lm_ha lm + lm_hd lm) / RR / cos alpha) ORIGIN (- lm_hd lm / RR / cos alpha) 0 0 true in
  let rot := mmul (mmul (rotz (- pia * rp / RR)) (rotx (PI / 2 - alpha))) (euler_zyx (- lm_hd lm / RR / cos alpha) 0 0) in
  mkCurve (SArc RR ((lm_ha lm + lm_hd lm) / RR / cos alpha) ORIGIN rot)
    (c_act c) (c_t0 c) (c_t1 c) (c_ndiv c) (c_length c) (c_ts c) (c_ss c).
(** gearteeth.py 401-435. *)
Definition flat_rack (rp pia alpha cone : R) (lm : limits) : curve :=
  if Req_EM_T cone 0 then plane_rack rp pia alpha lm else cone_flat_rack rp pia alpha cone lm.
(** 467-473: rack_flank_func. *)
Definition rack_flank (RR alpha a t : R) : vec :=
  let axis1 := mapp (rotx (- alpha)) OUT in
  mapp (rotz (t + a)) (mapp (from_rotvec (smul (t * cos alpha) (vopp axis1))) (smul RR RIGHT)).
(** 475-490. *)
Definition cone_involute_rack (ts : tsolver) (rp pia alpha cone : R) (lm : limits) : curve :=
  let RR := sphere_R rp cone in
  let c := new_curve (SGen (rack_flank RR alpha (- (rp / RR * pia)))) true (- (1)) 1 NDIV in
  let s2 := ts_root ts (fun s => asin (vz (c_eval c s) / RR) + lm_hd lm / RR) 0 in
  let s1 := ts_root ts (fun s => asin (vz (c_eval c s) / RR) - lm_ha lm / RR) 0 in
  set_start_and_end_on c s2 s1.
(** gearteeth.py 438-490. *)
Definition involute_rack (ts : tsolver) (rp pia alpha cone : R) (lm : limits) : curve :=
  if Req_EM_T cone 0 then plane_rack rp pia alpha lm else cone_involute_rack ts rp pia alpha cone lm.

(** ** Undercut *)
(** 169-196 and 357-398: the corner of the rack, [rack] being the flank. *)
Definition plane_ref_point (ts : tsolver) (rack : curve) (rp pitch_angle : R) : vec :=
  let x := snd (ts_plane ts EQUALITY (Prim rack) UP (splat (- rp * pitch_angle / 2)) 1) in
  if Rlt_dec 0 x then c_eval rack x else c_eval rack 0.
(** gearteeth.py 159-196, 353-398. *)
Definition cone_ref_point (ts : tsolver) (rack : curve) (cone pitch_angle : R) : vec :=
  let n := mapp (rotz (- pitch_angle / 2 * Rabs (sin (cone / 2)))) UP in
  let x := snd (ts_plane ts EQUALITY (Prim rack) n (splat 0) 0) in
  if Rlt_dec 0 x then c_eval rack x else c_eval rack 0.

(** 499-521. *)
Definition plane_undercut (rp : R) (P : vec) : curve :=
  new_curve (SGen (fun t => involute_circle t rp 0 (vsub P (smul rp RIGHT)) 0)) true 0 (- (1)) NDIV.
(** gearteeth.py 493-533. *)
Definition cone_undercut (rp cone : R) (P : vec) : curve :=
  let g := cone / 2 in
  let RR := Rabs (rp / sin g) in
  let w := mapp (roty (PI / 2)) (vsub P (smul RR RIGHT)) in
  new_curve (SGen (fun t => involute_sphere t rp (1 / RR * sign g) 0 (V (vx w) (vy w) (vz w * sign g)) 0))
    true 0 (- (1)) NDIV.
(** 493-533: generate_undercut_curve. *)
Definition undercut_curve (ts : tsolver) (rp cone : R) (P : vec) : curve :=
  let c := if Req_EM_T cone 0 then plane_undercut rp P else cone_undercut rp cone P in
  let x := ts_root ts (fun s => dot (c_eval c s) (c_eval c s) - rp * 1 * (rp * 1)) 1 in
  if Rlt_dec 0 x then set_end_on c x else c.

(** 536-562: trim_involute_undercut.  A single curve has no [get_length_portions]. *)
Definition trim_solution (ts : tsolver) (tooth : node) (ps1 : R) (under : curve) (g : R) : R * R :=
  let s1 := ts_meet ts EQUALITY tooth under g g in
  let '(_, x0, x1) := if fst (fst s1) then s1 else ts_meet ts MINDISTANCE tooth under g g in
  if Rlt_dec x0 ps1 then
    let '(_, y0, y1) := ts_meet ts EQUALITY tooth under (x0 + 2 / 10) (x1 + 2 / 10) in (y0, y1)
  else (x0, x1).
(** gearteeth.py 536-562. *)
Definition trim_undercut (ts : tsolver) (tooth : node) (under : curve) : res node :=
  match tooth with
  | Prim _ => Err AttributeError
  | Chain _ l =>
      let x := trim_solution ts tooth (nth 1 (portions (length_array l)) 0) under 1 in
      bind (n_set_start false tooth (fst x)) (fun tooth' =>
      Ok (new_chain true [Prim (set_end_on under (snd x)); tooth']))
  end.

(** ** Lower limit of a flank, base_classes 506-528 and 578-614; the flank is a single curve *)
Definition plane_lower (ts : tsolver) (rp pia : R) (lm : limits) (c : curve) : node :=
  let rd := rp - lm_hd lm in
  let circle := arc_curve rd (- pia * 2) ORIGIN 0 0 0 true in
  let '(ok, x0, _) := ts_meet ts EQUALITY (Prim c) circle (/ 2) (/ 2) in
  if (ok : bool) then Prim (set_start_on c x0)
  else
    let '(_, y0, _) := ts_meet ts MINDISTANCE (Prim c) circle (/ 2) (/ 2) in
    let c1 := set_start_on c y0 in
    let p := c_eval c1 0 in
    let rlow := norm (V (vx p) (vy p) 0) in
    if Rlt_dec rd rlow then new_chain true [Prim (line_curve (smul (/ rlow) (smul rd p)) p true); Prim c1]
    else Prim c1.
(** gggears_base_classes.py 578-614. *)
Definition cone_lower (ts : tsolver) (rp cone : R) (lm : limits) (c : curve) : node :=
  let g := cone / 2 in
  let RR := sphere_R rp cone in
  let hda := PI / 2 - g + lm_hd lm / RR in
  let n := mapp (roty hda) OUT in
  let apex := smul (RR * cos g) OUT in
  let '(ok, x) := ts_plane ts EQUALITY (Prim c) n apex 0 in
  if (ok : bool) then Prim (set_start_on c x)
  else
    let '(_, y) := ts_plane ts MINDISTANCE (Prim c) n apex 0 in
    let c1 := set_start_on c y in
    let bottom := Rabs (angle_to_plane (c_eval c1 0) OUT - hda) in
    new_chain true [Prim (c_reverse (from_point_center_angle (c_eval c1 0) apex bottom UP true)); Prim c1].
(** gggears_base_classes.py 506-528, 578-614. *)
Definition check_lower (ts : tsolver) (rp pia cone : R) (lm : limits) (c : curve) : node :=
  if Req_EM_T cone 0 then plane_lower ts rp pia lm c else cone_lower ts rp cone lm c.

(** ** Flanks *)
(** A generating curve whose attributes [angle] and [z_offs] are assigned after construction keeps its table. gearteeth.py 74-125: the flank with its attributes set afterwards. *)
Definition with_fun (c : curve) (f : R -> vec) : curve :=
  mkCurve (SGen f) (c_act c) (c_t0 c) (c_t1 c) (c_ndiv c) (c_length c) (c_ts c) (c_ss c).

(** 49-71 with the solver: the planar involute flank. *)
Definition plane_involute_flank (ts : tsolver) (rp alpha pia : R) : curve :=
  let '(_, s2, _) := ts_meet ts EQUALITY (Prim (involute_curve0 rp alpha)) (pitch_circle rp) (/ 2) 0 in
  let c := involute_curve1 rp alpha pia s2 in
  set_end_on c (snd (ts_plane ts EQUALITY (Prim c) UP ORIGIN 1)).
(** gearteeth.py 49-71. *)
Definition plane_involute_tooth (ts : tsolver) (rp alpha pia : R) : node :=
  let '(_, s2, _) := ts_meet ts EQUALITY (Prim (involute_curve0 rp alpha)) (pitch_circle rp) (/ 2) 0 in
  involute_tooth rp alpha pia s2
    (snd (ts_plane ts EQUALITY (Prim (involute_curve1 rp alpha pia s2)) UP ORIGIN 1)).

(** 74-114: the spherical involute flank; [t], [r] are [base_res.x]. *)
Definition cone_involute_angle (RR pia t r : R) : R :=
  let p := involute_sphere t r (1 / RR) 0 ORIGIN 0 in
  - (pia + angle_between (V (vx p) (vy p) 0) RIGHT).
(** gearteeth.py 98-106. *)
Definition cone_involute_z (RR g t r : R) : R := - vz (involute_sphere t r (1 / RR) 0 ORIGIN 0) * sign g.
(** gearteeth.py 74-114. *)
Definition cone_involute_curve (RR g pia t r : R) : curve :=
  let C := 1 / RR * sign g in
  with_fun (new_curve (SGen (fun u => involute_sphere u r C 0 ORIGIN 0)) true 0 1 NDIV)
    (fun u => involute_sphere u r C (cone_involute_angle RR pia t r) ORIGIN (cone_involute_z RR g t r)).
(** curve.py 1381-1386 and 1392-1394: center_sphere of that curve. *)
Definition cone_involute_center (RR g t r : R) : vec :=
  let C := 1 / RR * sign g in
  smul (sqrt (1 / C * (1 / C) - r * r) * sign C + cone_involute_z RR g t r) OUT.
(** 73-125. *)
Definition cone_involute_tooth (ts : tsolver) (rp alpha pia cone : R) : node :=
  let g := cone / 2 in
  let RR := Rabs (rp / sin g) in
  let '(t, r) := ts_base ts rp alpha RR in
  let c := cone_involute_curve RR g pia t r in
  let f := set_end_on c (snd (ts_plane ts EQUALITY (Prim c) UP ORIGIN 1)) in
  let conn := from_point_center_angle (c_eval f 0) (cone_involute_center RR g t r) (1 / 10)
                (smul (sign g) (normalize (cross OUT (c_eval f 0)))) true in
  new_chain true [Prim (c_reverse conn); Prim f].
(** 32-33: InvoluteTooth.generate_tooth_curve. *)
Definition involute_tooth_curve (ts : tsolver) (rp alpha pia cone : R) : node :=
  if Req_EM_T cone 0 then plane_involute_tooth ts rp alpha pia else cone_involute_tooth ts rp alpha pia cone.
(** [tooth_curve[1].base_radius] of line 149. *)
Definition involute_base (ts : tsolver) (rp alpha cone : R) : R :=
  if Req_EM_T cone 0 then rp * cos alpha else snd (ts_base ts rp alpha (Rabs (rp / sin (cone / 2)))).

(** 147-157: InvoluteUndercutTooth.generate_tooth_curve; [ref_limits = None] is stored as it is (142-144). *)
Definition involute_undercut_tooth (ts : tsolver) (rp alpha pia cone pitch_angle : R) (lm : option limits) : res node :=
  let tooth := involute_tooth_curve ts rp alpha pia cone in
  match lm with
  | None => Err AttributeError
  | Some lm =>
      if Rlt_dec (involute_base ts rp alpha cone) (rp - lm_hd lm) then Ok tooth
      else
        let rack := involute_rack ts rp pia alpha cone lm in
        let P := if Req_EM_T cone 0 then plane_ref_point ts rack rp pitch_angle
                 else cone_ref_point ts rack cone pitch_angle in
        trim_undercut ts tooth (undercut_curve ts rp cone P)
  end.
(** 198-200: set_default_undercut_ref_point passes an argument its method does not take. *)
Definition set_default_undercut_ref_point : res vec := Err TypeError.

(** 253-265 and 338-351: the octoid flank. *)
Definition cone_octoid_curve (rp alpha pia cone : R) : curve :=
  let RR := Rabs (rp / sin (cone / 2)) in
  with_fun (new_curve (SGen (fun t => octoid t rp (1 / (1 / RR)) alpha 0 ORIGIN 0)) true 0 1 NDIV)
    (fun t => octoid t rp (1 / (1 / RR)) alpha (- pia) ORIGIN 0).
(** gearteeth.py 253-265, 338-351. *)
Definition octoid_flank (ts : tsolver) (rp alpha pia cone : R) : curve :=
  if Req_EM_T cone 0 then plane_involute_flank ts rp alpha pia
  else
    let c := cone_octoid_curve rp alpha pia cone in
    set_end_on c (snd (ts_plane ts EQUALITY (Prim c) UP ORIGIN 1)).
(** 217-225: OctoidTooth. *)
Definition octoid_tooth (ts : tsolver) (rp alpha pia cone : R) (lm : option limits) : node :=
  let lm := match lm with None => default_limits | Some l => l end in
  check_lower ts rp pia cone lm (octoid_flank ts rp alpha pia cone).
(** 282-311: OctoidUndercutTooth. *)
Definition octoid_undercut_tooth (ts : tsolver) (rp alpha pia cone pitch_angle : R) (lm : option limits) : res node :=
  match lm with
  | None => Err AttributeError
  | Some lm =>
      let tooth := check_lower ts rp pia cone lm (octoid_flank ts rp alpha pia cone) in
      let P := if Req_EM_T cone 0 then plane_ref_point ts (plane_rack rp pia alpha lm) rp pitch_angle
               else cone_ref_point ts (cone_flat_rack rp pia alpha cone lm) cone pitch_angle in
      let enable := if Req_EM_T cone 0 then lt_b (norm P) (rp * cos alpha)
                    else lt_b (cone / 2 - asin (sin (cone / 2) * cos alpha)) (lm_hd lm / sphere_R rp cone) in
      if enable then trim_undercut ts tooth (undercut_curve ts rp cone P) else Ok tooth
  end.

(** curve.py 743-754: find_curve_nearest_point; Python's [min] keeps the first of equal keys. *)
Fixpoint min_by (best : R * R) (l : list (R * R)) : R * R :=
  match l with
  | [] => best
  | x :: r => min_by (if Rlt_dec (fst x) (fst best) then x else best) r
  end.
(** curve.py 743-754. *)
Definition nearest_point (ts : tsolver) (c : curve) (point : vec) (guesses : list R) : res R :=
  match map (ts_min ts (fun t => dot (vsub (c_eval c t) point) (vsub (c_eval c t) point))) guesses with
  | [] => Err ValueError
  | x :: r => Ok (snd (min_by x r))
  end.

(** gearteeth.py 602-619. *)
Definition cone_cycloid_fun (rb rc C angle t : R) : vec :=
  match cycloid_cone t rb rc C angle ORIGIN 0 with Ok p => p | Err _ => ORIGIN end.
(** gearteeth.py 602-619. *)
Definition cone_cyc_lower (rp rin pia cone : R) : curve :=
  let RR := rp / sin (cone / 2) in
  new_curve (SGen (cone_cycloid_fun rp (- rin * rp) (1 / RR) (- pia))) true (- rin * PI / 2) 0 NDIV.
(** gearteeth.py 602-619. *)
Definition cone_cyc_upper (rp rout pia cone : R) : curve :=
  let RR := rp / sin (cone / 2) in
  new_curve (SGen (cone_cycloid_fun rp (rout * rp) (1 / RR) (- pia))) true 0 (pia * 2) NDIV.
(** 585-628. *)
Definition cycloid_tooth_curve (ts : tsolver) (rp rin rout pia cone : R) : res node :=
  let lower := if Req_EM_T cone 0 then cyc_lower rp rin pia else cone_cyc_lower rp rin pia cone in
  let upper := if Req_EM_T cone 0 then cyc_upper rp rout pia else cone_cyc_upper rp rout pia cone in
  bind (nearest_point ts upper (smul (rp + rout * rp) RIGHT) [1 / 10; 5 / 10; 9 / 10]) (fun s0 =>
  Ok (new_chain true [Prim lower;
        Prim (set_end_on upper (snd (ts_plane ts EQUALITY (Prim upper) UP ORIGIN s0)))])).

(** ** Default generators, base_classes 498-504, 550-576, 628-635 *)
Definition plane_line_tooth (rp pia tooth_angle : R) : node :=
  let p0 := mapp (rotz (- pia)) (smul rp RIGHT) in
  let dp := mapp (rotz tooth_angle) (smul (2 / 10) p0) in
  new_chain true [Prim (line_curve (vsub p0 dp) (vadd p0 dp) true)].
(** gggears_base_classes.py 550-576. *)
Definition cone_arc_tooth (rp pia tooth_angle cone : R) : node :=
  let g := cone / 2 in
  let h := rp / tan g in
  let p0 := mapp (rotz (- pia)) (smul rp RIGHT) in
  let axis := cross (smul (/ norm p0) p0) OUT in
  let ta := vsub (smul h OUT) p0 in
  let ta := smul (/ norm ta) ta in
  let axis := mapp (from_rotvec (smul (tooth_angle * sign g) ta)) axis in
  new_chain true [Prim (from_point_center_angle p0 (smul h OUT) (1 / 10) axis true)].
(** gggears_base_classes.py 498-504, 550-576. *)
Definition default_tooth (rp pia tooth_angle cone : R) : node :=
  if Req_EM_T cone 0 then plane_line_tooth rp pia tooth_angle else cone_arc_tooth rp pia tooth_angle cone.
(** gggears_base_classes.py 628-635. *)
Definition rack_line_tooth (tooth_width pitch tooth_angle : R) : node :=
  let dp := mapp (rotz tooth_angle) RIGHT in
  let m := smul (PI / 4) DOWN in
  new_chain true [Prim (line_curve (vsub m (smul (/ 2) dp)) (vadd m (smul (/ 2) dp)) true)].
