(** Fillets and tip reduction: curve.py 455-457 and 641-664 (get_t_for_index, the fillet methods of CurveChain), 948-995
    (calc_tangent_arc), 998-1043 (fillet_curve); gggears_core.py 192-330 (apply_tip_reduction, apply_fillet) and
    599-650 (generate_reference_profile).

    The numerical solvers are arbitrary functions of their inputs.  A division 0/0 gives nan in NumPy and no
    exception; here it is [Err ZeroDivisionError].  The method MINDISTANCE of calc_tangent_arc, which no caller uses,
    is left out. *)
From Coq Require Import Reals List ZArith Lra Bool.
From Verif Require Import Num Vec Transform Params Coords Interp Curve Chain GearMath RefLines Profile.
Import ListNotations.
Open Scope R_scope.

(** Curve.derivative with its default arguments, curve.py 206-234, on a curve or a chain. *)
Definition n_derivative (n : node) (t : R) : res vec :=
  bind (n_eval n (t + DELTA)) (fun a => bind (n_eval n (t - DELTA)) (fun b =>
  Ok (smul (/ DELTA) (smul (/ 2) (vsub a b))))).

(** curve.py 956-973 and 1000-1017: calc_centers.  From the points and the derivatives: the two centres. *)
Definition centers_of (p1 p2 d1 d2 : vec) (radius : R) : res (vec * vec) :=
  bind (normalize_r d1) (fun tan1 => bind (normalize_r d2) (fun tan2 =>
  bind (normalize_r (cross tan1 tan2)) (fun axis =>
  Ok (vsub p1 (smul radius (cross tan1 axis)), vsub p2 (smul radius (cross tan2 axis)))))).
(** curve.py 955-970, 1000-1015. *)
Definition calc_centers (n1 n2 : node) (radius t1 t2 : R) : res (vec * vec) :=
  bind (n_eval n1 t1) (fun p1 => bind (n_eval n2 t2) (fun p2 =>
  bind (n_derivative n1 t1) (fun d1 => bind (n_derivative n2 t2) (fun d2 =>
  centers_of p1 p2 d1 d2 radius)))).

(** [fs_tan n1 n2 radius s1 s2 g] is [root(cost_fun, [g, g, 0])] of 975-979: the success flag, [x[0]], [x[1]];
    [fs_meet] is find_curve_intersect (698-716), [fs_plane] find_curve_plane_intersect (727-740). *)
Record fsolver : Type := mkFs {
  fs_tan : node -> node -> R -> R -> R -> R -> bool * R * R;
  fs_meet : node -> curve -> R -> R -> bool * R * R;
  fs_plane : node -> vec -> R -> bool * R }.

(** The arc between two places, 989-994 and 1034-1041. *)
Definition tangent_arc (n1 n2 : node) (radius t1 t2 : R) : res curve :=
  bind (calc_centers n1 n2 radius t1 t2) (fun c =>
  bind (n_eval n1 t1) (fun p1 => bind (n_eval n2 t2) (fun p2 =>
  Ok (from_2_point_center p1 p2 (smul (/ 2) (vadd (fst c) (snd c))) 0 true)))).

(** Result of calc_tangent_arc: the arc, [t1], [t2] and the success flag. *)
Record arc_found : Type := mkAf { af_arc : curve; af_t1 : R; af_t2 : R; af_ok : bool }.

(** curve.py 948-995: calc_tangent_arc. *)
Definition calc_tangent_arc (fs : fsolver) (n1 n2 : node) (radius s1 s2 : R) : res arc_found :=
  let '(ok, x0, x1) := fs_tan fs n1 n2 radius s1 s2 0 in
  bind (tangent_arc n1 n2 radius (s1 - x0) (s2 + x1)) (fun arc => Ok (mkAf arc (s1 - x0) (s2 + x1) ok)).

(** curve.py 998-1043: fillet_curve, three attempts, the last one accepted unconditionally. *)
Definition fillet_curve (fs : fsolver) (n : node) (radius s1 s2 : R) : res arc_found :=
  let a1 := fs_tan fs n n radius s1 s2 0 in
  let a2 := if fst (fst a1) then a1 else fs_tan fs n n radius s1 s2 (radius / n_length n) in
  let '(ok, x0, x1) := if fst (fst a2) then a2 else fs_tan fs n n radius s1 s2 DELTA in
  bind (tangent_arc n n radius (s1 - x0) (s2 + x1)) (fun arc => Ok (mkAf arc (s1 - x0) (s2 + x1) ok)).

(** curve.py 641-651: fillet_at_locations. *)
Definition fillet_at_locations (fs : fsolver) (n : node) (radius s1 s2 : R) : res node :=
  bind (fillet_curve fs n radius s1 s2) (fun f =>
  bind (n_set_end false n (af_t1 f)) (fun c1 => bind (n_set_start false n (af_t2 f)) (fun c2 =>
  Ok (new_chain true (map Prim (get_curves c1) ++ Prim (af_arc f) :: map Prim (get_curves c2)))))).
(** curve.py 653-660: fillet. *)
Definition fillet (fs : fsolver) (n : node) (radius location : R) : res node :=
  fillet_at_locations fs n radius (location + radius / n_length n) (location - radius / n_length n).
(** curve.py 455-457: get_t_for_index. *)
Definition get_t_for_index (l : list node) (i : nat) : R * R :=
  let ps := portions (length_array l) in (nth i ps 0, nth (S i) ps 0).
(** curve.py 662-664: fillet_at_index; [index % num_curves] of an empty chain raises. *)
Definition fillet_at_index (fs : fsolver) (n : node) (radius : R) (index : Z) : res node :=
  match n with
  | Prim _ => Err AttributeError
  | Chain a l =>
      match l with
      | [] => Err ZeroDivisionError
      | _ => fillet fs n radius (snd (get_t_for_index l (Z.to_nat (index mod Z.of_nat (length l)))))
      end
  end.

(** ** core 192-228: apply_tip_reduction.  The radii found at the plane y = 0 above the dedendum. *)
Definition tip_guesses : list R := [1 / 10; 11 / 30; 19 / 30; 9 / 10].   (* np.linspace(0.1, 0.9, 4) *)
Definition tip_radii (fs : fsolver) (tooth : node) (ca br rdh : R) : list R :=
  flat_map (fun g => let '(ok, x) := fs_plane fs tooth UP g in
              let r := vx (polar_transform ca br (n_point tooth x)) in
              if ok && lt_b rdh r then [r] else []) tip_guesses.
(** gggears_core.py 192-227. *)
Definition apply_tip_reduction (fs : fsolver) (tooth : node) (rah rdh red ca br : R) : R :=
  match tip_radii fs tooth ca br rdh with
  | [] => rah
  | r :: rs =>
      let r_sol := fold_left Rmin rs r in
      if Rlt_dec (r_sol - red) rah then (if Rlt_dec 0 red then r_sol - red else r_sol) else rah
  end.

(** ** core 230-330: apply_fillet *)
(** core 252-254: angle_check. *)
Definition angle_check (pitch : R) (p : vec) : bool :=
  let angle := - arctan2 (vy p) (vx p) in lt_b 0 angle && lt_b angle (pitch / 2).
(** core 263-292: the first successful attempt, or the last one. *)
Fixpoint try_arcs (f : R -> res arc_found) (g : R) (gs : list R) : res arc_found :=
  bind (f g) (fun a => if af_ok a then Ok a else match gs with [] => Ok a | g' :: r => try_arcs f g' r end).
(** core 294-299: the flank starts (ends) with the arc.  Only a chain has [insert] and [append]. *)
Definition with_start_arc (tooth : node) (t : R) (arc : curve) : res node :=
  bind (n_set_start false tooth t) (fun m =>
  match m with Chain a l => Ok (Chain a (ch_insert l 0 (Prim arc))) | Prim _ => Err AttributeError end).
(** gggears_core.py 294-299. *)
Definition with_end_arc (tooth : node) (t : R) (arc : curve) : res node :=
  bind (n_set_end false tooth t) (fun m =>
  match m with Chain a l => Ok (Chain a (ch_append l (Prim arc))) | Prim _ => Err AttributeError end).
(** core 305-313: the neighbouring flank, reversed. *)
Definition mirrored_flank (tooth : node) (plane_normal : vec) : curve := c_reverse (n_mirrored tooth plane_normal ORIGIN).
(** core 304-328: half of the arc between the flank and its mirror image. *)
Definition sharp_fillet (fs : fsolver) (tooth : node) (pitch radius : R) (root : bool) : res node :=
  let mirror := Prim (mirrored_flank tooth (if root then rotate_vector UP (- pitch / 2) else UP)) in
  let q := radius / n_length tooth in
  if root then
    bind (calc_tangent_arc fs mirror tooth radius (1 - q) (0 + q)) (fun a =>
    with_start_arc tooth (af_t2 a) (set_start_on (af_arc a) (1 / 2)))
  else
    bind (calc_tangent_arc fs tooth mirror radius (1 - q) (0 + q)) (fun a =>
    with_end_arc tooth (af_t1 a) (set_end_on (af_arc a) (1 / 2))).
(** core 255-302; [root] is [direction == 1]. *)
Definition fillet_attempt (fs : fsolver) (tooth : node) (circle : curve) (radius x0 x1 : R) (root : bool) (k : R) :
  res arc_found :=
  let g := k * radius in
  if root then calc_tangent_arc fs (Prim circle) tooth radius (x1 - g / c_length circle) (x0 + g / n_length tooth)
  else calc_tangent_arc fs tooth (Prim circle) radius (x0 - g / n_length tooth) (x1 + g / c_length circle).
(** gggears_core.py 230-339. *)
Definition apply_fillet (fs : fsolver) (tooth : node) (pitch : R) (circle : curve) (radius : R) (root : bool) :
  res node :=
  let '(ok, x0, x1) := fs_meet fs tooth circle (1 / 2) (- pitch / (2 * PI) / 4 * (101 / 100)) in
  if ok && angle_check pitch (c_eval circle x1) then
    bind (try_arcs (fillet_attempt fs tooth circle radius x0 x1 root) (1 / 2) [1; 3 / 2]) (fun a =>
    if angle_check pitch (c_eval (af_arc a) 0) && angle_check pitch (c_eval (af_arc a) 1) then
      (if root then with_start_arc tooth (af_t2 a) (af_arc a) else with_end_arc tooth (af_t1 a) (af_arc a))
    else sharp_fillet fs tooth pitch radius root)
  else sharp_fillet fs tooth pitch radius root.

(** ** core 599-650: generate_reference_profile.  [tooth] is the curve made by the tooth generator; FilletParam
    (core 112-131) is the triple [tipf], [rootf], [red]. *)
Definition as_chain (n : node) : node := match n with Chain _ _ => n | Prim _ => new_chain true [n] end.
(** core 611-622. *)
Definition reduced_circles (fs : fsolver) (tooth : node) (rc : ref_circles) (red ca br : R) : ref_circles :=
  if Rlt_dec 0 red then
    let height c := vx (polar_transform ca br (c_eval c 0)) in
    let rah := apply_tip_reduction fs tooth (height (rc_a rc)) (height (rc_d rc)) red ca br in
    let pa := inverse_polar_transform ca br (V rah 0 0) in
    mkRC (ref_circle pa) (rc_p rc) (rc_d rc) (rc_o rc)
  else rc.
(** core 623-643. *)
Definition filleted_flank (fs : fsolver) (tooth : node) (rc : ref_circles) (tipf rootf pitch : R) : res node :=
  bind (if Rlt_dec 0 tipf then apply_fillet fs (as_chain tooth) pitch (rc_a rc) tipf false else Ok tooth) (fun t =>
  if Rlt_dec 0 rootf then apply_fillet fs (as_chain t) pitch (rc_d rc) rootf true else Ok t).
(** gggears_core.py 599-647. *)
Definition generate_reference_profile (sv : solver) (fs : fsolver) (tooth : node) (rp ha hd ho ca br : R)
  (tipf rootf red pitch : R) (trf : gtransform) : res profile :=
  let rc := reduced_circles fs tooth (generate_reference_circles rp ha hd ho ca br) red ca br in
  bind (filleted_flank fs tooth rc tipf rootf pitch) (fun t =>
  bind (trim_reference_profile sv t rc tipf rootf pitch) (fun p =>
  Ok (mkPr (pr_ra p) (pr_rd p) (pr_ro p) (pr_tooth p) (pr_mirror p) (pr_pitch p) trf))).
