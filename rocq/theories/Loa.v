(** Model of LineOfAction (gggears_wrapper.py 1934-2020). *)
From Coq Require Import Reals Lra List ZArith.
From Verif Require Import Num Vec Transform Params Coords GearMath Tooth Wrapper Info.
Import ListNotations.
Open Scope R_scope.

(** 1969-1972: mirror_diffline. *)
Definition loa_mirror (center1 u p : vec) : vec :=
  let p1 := vsub p center1 in
  let p_norm := vsub p1 (smul (dot p1 u) u) in
  vsub p (smul 2 p_norm).

(** 1962-2020: LOA_gen on the numbers it reads: centres, base radii, which gear is a ring, and the
    addendum radii (only the pinion's is used).  Each line is given by its end points.  A division
    by zero and the root of a negative number give nan in numpy; here both are
    [Err ZeroDivisionError]. *)
Definition loa_lines (c1 c2 : vec) (rb1 rb2 : R) (ring1 ring2 : bool) (ra1 ra2 : R)
    : res ((vec * vec) * (vec * vec)) :=
  let diff := vsub c2 c1 in
  let distance := norm diff in
  bind (normalize_r diff) (fun u =>
  if ring1 then
    if Rlt_dec 1 (Rabs (rb2 - rb1) / distance) then Err ValueError else
    let alpha := acos ((rb2 - rb1) / distance) in
    if Rlt_dec (ra2 * ra2 - rb2 * rb2) 0 then Err ZeroDivisionError else
    let len := sqrt (ra2 * ra2 - rb2 * rb2) in
    let s1 := vadd c2 (smul rb2 (rotate_vector (vopp u) alpha)) in
    let e1 := vadd s1 (smul len (rotate_vector u (- PI / 2 + alpha))) in
    Ok ((s1, e1), (loa_mirror c1 u s1, loa_mirror c1 u e1))
  else if ring2 then
    if Rlt_dec 1 (Rabs (rb2 - rb1) / distance) then Err ValueError else
    let alpha := acos ((rb2 - rb1) / distance) in
    if Rlt_dec (ra1 * ra1 - rb1 * rb1) 0 then Err ZeroDivisionError else
    let len := sqrt (ra1 * ra1 - rb1 * rb1) in
    let s1 := vadd c1 (smul rb1 (rotate_vector (vopp u) alpha)) in
    let e1 := vsub s1 (smul len (rotate_vector u (- PI / 2 + alpha))) in
    Ok ((s1, e1), (loa_mirror c1 u s1, loa_mirror c1 u e1))
  else
    if Rlt_dec 1 (Rabs (rb2 + rb1) / distance) then Err ValueError else
    let alpha := acos ((rb1 + rb2) / distance) in
    Ok ((vadd c1 (smul rb1 (rotate_vector u alpha)), vadd c2 (smul rb2 (rotate_vector (vopp u) alpha))),
        (vadd c1 (smul rb1 (rotate_vector u (- alpha))), vadd c2 (smul rb2 (rotate_vector (vopp u) (- alpha)))))).

(** 1948-1972: where the numbers come from. *)
Definition ig_loa (g1 g2 : igear) (ratio ra1 ra2 : R) : res ((vec * vec) * (vec * vec)) :=
  let z1 := k_p2z (ig_core g1) ratio in let z2 := k_p2z (ig_core g2) ratio in
  loa_lines (ig_center_point_at_z g1 z1) (ig_center_point_at_z g2 z2)
    (ig_base_circle_radius g1 z1) (ig_base_circle_radius g2 z2)
    (inside_teeth (k_tooth (ig_core g1))) (inside_teeth (k_tooth (ig_core g2))) ra1 ra2.
