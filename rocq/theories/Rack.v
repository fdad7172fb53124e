(** Model of the racks: InvoluteRack (gggears_wrapper.py 2023-2251) and HelicalRack (2254-2416).
    Fillets are in RackFillet.v. Not modelled: how build123d makes the solid; the solid is
    represented by the map taking a point of the tooth outline and a height to a point in space. *)
From Coq Require Import Reals Lra List ZArith.
From Verif Require Import Num Vec Transform Params Coords GearMath Tooth Wrapper.
Import ListNotations.
Open Scope R_scope.

(** 2092-2122 and 2341: the attributes. *)
Record rack : Type := mkRack {
  rk_teeth : Z; rk_height : R; rk_alpha : R; rk_pos : vec; rk_offset : R; rk_orient : mat;
  rk_module : R; rk_add : R; rk_ded : R; rk_beta : R; rk_backlash : R; rk_herring : bool }.

(** 2324-2358: HelicalRack.__init__ (InvoluteRack.__init__ stores its arguments). *)
Definition helical_rack_new (teeth : Z) (height alpha : R) (pos : vec) (offset : R) (orient : mat)
    (module add ded helix backlash : R) (herring : bool) : rack :=
  mkRack teeth height (atan (tan alpha / cos helix)) pos offset orient (module / cos helix)
    (add * cos helix) (ded * cos helix) helix backlash herring.

(** 2124-2151: corners of the tooth outline (module 1, so the pitch is PI). *)
Definition rk_pitch : R := PI.
(** gggears_wrapper.py 2124-2151. *)
Definition rk_pt_a0 (r : rack) : vec := smul (rk_add r) RIGHT.
(** gggears_wrapper.py 2124-2151. *)
Definition rk_pt_a (r : rack) : vec :=
  vadd (smul (rk_add r) RIGHT) (smul (rk_pitch / 4 - tan (rk_alpha r) * rk_add r - rk_backlash r) DOWN).
(** gggears_wrapper.py 2124-2151. *)
Definition rk_pt_d (r : rack) : vec :=
  vadd (smul (rk_ded r) LEFT) (smul (rk_pitch / 4 + tan (rk_alpha r) * rk_ded r - rk_backlash r) DOWN).
(** gggears_wrapper.py 2124-2151. *)
Definition rk_pt_c (r : rack) : vec := vadd (smul (rk_pitch / 2) DOWN) (smul (rk_ded r) LEFT).
(** gggears_wrapper.py 2124-2151. *)
Definition rk_pt_o (r : rack) : vec := vadd (rk_pt_c r) LEFT.
(** 2148, 2179: mirror image in the plane XZ. *)
Definition rk_mirror (p : vec) : vec := V (vx p) (- vy p) (vz p).
(** 2151-2181: the flanks of the outline, straight lines from [d] to [a] (lower, at negative y) and
    their mirror image (upper). *)
Definition rk_line (r : rack) (s : R) : vec := vadd (rk_pt_d r) (smul s (vsub (rk_pt_a r) (rk_pt_d r))).

(** 2192-2199 (2370-2376): shift of tooth [j] of the grid; GridLocations centres its [count] places
    with the given spacing about the origin. *)
Definition rk_grid (r : rack) (j : Z) : R :=
  rk_pitch * (IZR j - (IZR (rk_teeth r) - 1) / 2) + rk_pitch / 2 * IZR ((rk_teeth r + 1) mod 2).

(** 2193, 2368: extrude_dir. *)
Definition rk_extrude_dir (r : rack) : vec := mapp (rotx (rk_beta r)) OUT.
(** 2201-2206 (2378-2403): shift of the section at height [z] (module 1) by the extrusion; the
    extrusion runs over [0 <= z <= height / module], length [z / cos beta] reaching height [z]; in
    the upper half of a herringbone rack the y component is turned round. *)
Definition rk_lift (r : rack) (z : R) : vec :=
  let half := / 2 * rk_height r / rk_module r in
  if rk_herring r then
    if Rle_dec z half then smul (z / cos (rk_beta r)) (rk_extrude_dir r)
    else vadd (smul (half / cos (rk_beta r)) (rk_extrude_dir r))
           (smul ((z - half) / cos (rk_beta r)) (rk_mirror (rk_extrude_dir r)))
  else smul (z / cos (rk_beta r)) (rk_extrude_dir r).

(** 2208-2219 (2405-2416): translate by the offset, scale, orient, translate. *)
Definition rk_place (r : rack) (p : vec) : vec :=
  vadd (rk_pos r) (mapp (rk_orient r) (smul (rk_module r) (vadd p (smul (rk_offset r * rk_pitch) UP)))).

(** A point [p] of the outline of the tooth at grid shift [y], at height [z]. gggears_wrapper.py 2177-2215. *)
Definition rk_point (r : rack) (y z : R) (p : vec) : vec :=
  rk_place r (vadd (vadd p (smul y UP)) (rk_lift r z)).

(** 2223-2251: mesh_to. *)
Definition rk_mesh_to (r : rack) (g : igear) (target : vec) (offset : R) : res rack :=
  let T := k_trf (ig_core g) in
  let ang := angle_xy (vmat target (g_orient T)) in
  let phase := frac ((ang - g_angle T) / k_pitch_angle (ig_core g)) in
  bind (normalize_r (project_plane target (g_z_axis T))) (fun u =>
  Ok (mkRack (rk_teeth r) (rk_height r) (rk_alpha r)
    (vadd (g_center T) (smul (k_pitch_radius (ig_core g) + ip_shift (ig_in g) * k_module (ig_core g)) u))
    (frac phase - 5 / 10 + offset)
    (mmul (g_orient T) (rotz (PI + ang)))
    (rk_module r) (rk_add r) (rk_ded r) (rk_beta r) (rk_backlash r) (rk_herring r))).
