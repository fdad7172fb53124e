(** Model of the vector and coordinate helpers of src/gggears/function_generators.py and of
    GearPolarTransform in src/gggears/gggears_core.py (single-point versions; the Python
    functions also accept arrays and then work row by row). *)
From Coq Require Import Reals Lra.
From Verif Require Import Num Vec Transform Params.
Open Scope R_scope.

(** function_generators.py 18-20: rotate_vector. *)
Definition rotate_vector (v : vec) (a : R) : vec := mapp (rotz a) v.
(** 23-24: normalize_vector. *)
Definition normalize (v : vec) : vec := smul (/ norm v) v.
(** 27-28: angle_between_vectors. *)
Definition angle_between (a b : vec) : R := arctan2 (norm (cross a b)) (dot a b).
(** 39-40: project_vector_to_plane. *)
Definition project_plane (v n : vec) : vec := vsub v (smul (dot v n) n).
(** 31-36: angle_between_vector_and_plane. *)
Definition angle_to_plane (v n : vec) : R :=
  let v_plane := vsub v (smul (dot v n) n) in
  if Req_EM_T (norm v_plane) 0 then PI / 2 else angle_between v_plane v.
(** 43-44: angle_of_vector_in_xy. *)
Definition angle_xy (v : vec) : R := arctan2 (vy v) (vx v).

(** 548-563: xyz_to_spherical, result (r, phi, theta). *)
Definition xyz_to_spherical (v center : vec) : vec :=
  let d := vsub v center in
  let r := norm d in
  V r (arctan2 (vy d) (vx d)) (acos (vz d / r)).
(** 566-582: spherical_to_xyz. *)
Definition spherical_to_xyz (s center : vec) : vec :=
  let r := vx s in let phi := vy s in let theta := vz s in
  V (r * sin theta * cos phi + vx center)
    (r * sin theta * sin phi + vy center)
    (r * cos theta + vz center).
(** 585-602: xyz_to_cylindrical, result (r, phi, z). *)
Definition xyz_to_cylindrical (v center : vec) : vec :=
  let d := vsub v center in
  V (sqrt (vx d * vx d + vy d * vy d)) (arctan2 (vy d) (vx d)) (vz d).
(** 605-622: cylindrical_to_xyz. *)
Definition cylindrical_to_xyz (c center : vec) : vec :=
  V (vx c * cos (vy c) + vx center) (vx c * sin (vy c) + vy center) (vz c + vz center).

(** gggears_core.py 26-36: GearPolarTransform is a ConicData with the default transform. *)
Definition polar_cone (ca br : R) : conic := mkC ca br t_default.

(** point * z_comp with z_comp = [1, 1, sign(cone_angle)] (core 66-68, 98). *)
Definition zcomp (ca : R) (p : vec) : vec := V (vx p * 1) (vy p * 1) (vz p * sign ca).

(** core 46-90: polar_transform. *)
Definition polar_transform (ca br : R) (p : vec) : vec :=
  let c := polar_cone ca br in
  if Req_EM_T ca 0 then xyz_to_cylindrical p ORIGIN
  else
    let q := xyz_to_spherical (zcomp ca p) (zcomp ca (c_center c)) in
    V ((PI / 2 - vz q) * c_R c) (vy q) (c_R c - vx q).

(** core 92-112: inverse_polar_transform. *)
Definition inverse_polar_transform (ca br : R) (p : vec) : vec :=
  let c := polar_cone ca br in
  if Req_EM_T ca 0 then cylindrical_to_xyz p ORIGIN
  else
    zcomp ca (spherical_to_xyz (V (c_R c - vz p) (vy p) (PI / 2 - vx p / c_R c))
                               (zcomp ca (c_center c))).
