(** Model of the generating curves of src/gggears/function_generators.py (one parameter value
    at a time; for array-valued t Python's Rotation.apply works entry by entry). *)
From Coq Require Import Reals Lra.
From Verif Require Import Num Vec Coords.
Open Scope R_scope.

(** 131-143: involute_circle. *)
Definition involute_circle (t r angle : R) (v_offs : vec) (z_offs : R) : vec :=
  let d := smul (r * t) DOWN in
  vadd (mapp (rotz (t + angle)) (vadd (vadd (smul r RIGHT) d) v_offs)) (smul z_offs OUT).

(** 146-183: involute_sphere.  The unused rot_chain2 is left out. *)
Definition involute_sphere (t r C angle : R) (v_offs : vec) (z_offs : R) : vec :=
  if Req_EM_T C 0 then involute_circle t r angle v_offs 0
  else
    let RR := 1 / Rabs C in
    let Csig := sign C in
    let phi := r / RR * t in
    let v1 := vadd (mapp (roty (- (PI / 2) * Csig)) v_offs) (smul RR RIGHT) in
    let beta := asin (r / RR) in
    let z_center := smul Csig (smul (sqrt (RR * RR - r * r)) OUT) in
    let rot_chain := mmul (mmul (rotz (t + angle)) (roty ((PI / 2 - beta) * Csig))) (rotz (- phi)) in
    vadd (vadd (mapp rot_chain v1) z_center) (smul z_offs OUT).

(** 186-208: cycloid_circle. *)
Definition cycloid_circle (t rb rc angle : R) (v_offs : vec) (z_offs : R) : vec :=
  let beta := t * rb / rc in
  let v0 := smul (rb + rc) RIGHT in
  let v1 := vadd (smul rc LEFT) v_offs in
  vadd (mapp (rotz (t + angle)) (vadd v0 (mapp (rotz beta) v1))) (smul z_offs OUT).

(** 215-250: cycloid_cone.  With C = 0 the code reads the unbound name [r]. *)
Definition cycloid_cone (t rb rc C angle : R) (v_offs : vec) (z_offs : R) : res vec :=
  if Req_EM_T C 0 then Err NameError
  else
    let RR := 1 / Rabs C in
    let Csig := sign C in
    let gamma1 := asin (rb / RR) in
    let gamma2 := asin (rc / RR) in
    let z_center := smul Csig (smul (sqrt (RR * RR - rb * rb)) OUT) in
    let g12 := roty (- Csig * (gamma1 + gamma2)) in
    let v0 := vadd (smul rb RIGHT) (mapp g12 (smul rc RIGHT)) in
    let beta := t * rb / rc in
    let v1 := mapp (rotz beta) (vadd (smul rc LEFT) v_offs) in
    let v3 := vadd (mapp g12 (vsub v1 (smul 0 z_center))) (smul 0 z_center) in
    Ok (vadd (mapp (rotz (t + angle)) (vadd v0 v3)) (smul z_offs OUT)).

(** 621-679: octoid. *)
Definition octoid (t base_rad sphere_rad alpha angle : R) (v_offs : vec) (z_offs : R) : vec :=
  let beta := asin (base_rad / sphere_rad) in
  let r := sphere_rad in
  let s x := sin x in let c x := cos x in
  let s2 x := sin x * sin x in let c2 x := cos x * cos x in
  let a1sb := t * s beta in
  let RR := - r / sqrt (s2 alpha * s2 (t * s beta) + c2 (t * s beta)) in
  let v0 := - c2 alpha * c t * s a1sb * c a1sb + s beta * s2 alpha * s t * s2 a1sb
            + c beta * s alpha * c alpha * s t * s a1sb + s beta * s t * c2 a1sb in
  let v1 := c2 alpha * s t * s a1sb * c a1sb + s beta * s2 alpha * c t * s2 a1sb
            + c beta * s alpha * c alpha * c t * s a1sb + s beta * c t * c2 a1sb in
  let v2 := - c beta * s2 alpha * s2 a1sb + s beta * s alpha * c alpha * s a1sb
            - c beta * c2 a1sb in
  let v := smul RR (V v0 v1 v2) in
  let rot := mmul (rotz (PI / 2 + angle)) (roty PI) in
  let zshift := sqrt (sphere_rad * sphere_rad - base_rad * base_rad) in
  vadd (mapp rot v) (smul zshift OUT).
