(** Model of src/gggears/gearteeth.py: the planar involute tooth (InvoluteTooth 9-78 with
    cone_angle = 0, also used by InvoluteUndercutTooth and, with the same code, by
    OctoidTooth 233-255).  The values returned by scipy's [root] are parameters:
    [s2] (find_curve_intersect, line 55) and [s1] (find_curve_plane_intersect, line 61). *)
From Coq Require Import Reals Lra List.
From Verif Require Import Num Vec Coords Gen Curve Chain.
Import ListNotations.
Open Scope R_scope.

(** gearteeth.py 50-52: [crv.InvoluteCurve(r=rp*cos(alpha), angle=0, t0=0, t1=2)]. *)
Definition involute_curve0 (rp alpha : R) : curve :=
  new_curve (SGen (fun t => involute_circle t (rp * cos alpha) 0 ORIGIN 0)) true 0 2 NDIV.
(** 54: the pitch circle. *)
Definition pitch_circle (rp : R) : curve := arc_curve rp (2 * PI) ORIGIN 0 0 0 true.
(** 56-61: [involute_angle_0]. *)
Definition involute_angle_0 (rp alpha s2 : R) : R :=
  angle_between RIGHT (c_eval (involute_curve0 rp alpha) s2).
(** 63, and get_base_angle 30-32. *)
Definition base_angle (rp alpha pia s2 : R) : R := - (pia + involute_angle_0 rp alpha s2).
(** get_base_radius 26-28. *)
Definition base_radius_of (rp alpha : R) : R := rp * cos alpha.
(** 63: assigning [involute_curve.angle] changes the function but keeps the length table. *)
Definition involute_curve1 (rp alpha pia s2 : R) : curve :=
  let c := involute_curve0 rp alpha in
  mkCurve (SGen (fun t => involute_circle t (rp * cos alpha) (base_angle rp alpha pia s2) ORIGIN 0))
    (c_act c) (c_t0 c) (c_t1 c) (c_ndiv c) (c_length c) (c_ts c) (c_ss c).
(** 64-67. *)
Definition involute_flank (rp alpha pia s2 s1 : R) : curve :=
  set_end_on (involute_curve1 rp alpha pia s2) s1.
(** 68-72: the whole tooth flank, root connector first. *)
Definition involute_tooth (rp alpha pia s2 s1 : R) : node :=
  let f := involute_flank rp alpha pia s2 s1 in
  new_chain true [Prim (line_curve (smul (/ 2) (c_eval f 0)) (c_eval f 0) true); Prim f].

(** The solver's exactness, as used in theorems: the involute meets the pitch circle at [s2]
    on the side t >= 0, and the finished flank meets the x axis at [s1]. *)
Definition s2_exact (rp alpha s2 : R) : Prop :=
  (exists s, c_eval (involute_curve0 rp alpha) s2 = c_eval (pitch_circle rp) s) /\
  0 <= s2t (involute_curve0 rp alpha) s2.
