(** Model of the reporting properties of GearInfoMixin (gggears_wrapper.py 20-288) and of the
    constructors of the classes derived from InvoluteGear (746-1512). *)
From Coq Require Import Reals Lra List ZArith.
From Verif Require Import Num Vec Transform Params Coords GearMath Tooth Wrapper.
Import ListNotations.
Open Scope R_scope.

(** 88-94: center_spherical. *)
Definition ig_center_spherical (g : igear) : vec :=
  let k := ig_core g in
  apply_gear_transform (smul (/ k_module k) (c_center (k_cone_data k))) (k_trf k).
(** 96-105: center_transform_at_z, center_point_at_z. *)
Definition ig_center_transform_at_z (g : igear) (z : R) : gtransform :=
  g_mul (k_trf (ig_core g)) (k_slice (ig_core g) z).
(** gggears_wrapper.py 103-105. *)
Definition ig_center_point_at_z (g : igear) (z : R) : vec := g_center (ig_center_transform_at_z g z).
(** 148-165: center_point_bottom, center_point_middle, center_point_top. *)
Definition k_z_first (k : core) : R := nth 0 (k_zvals k) 0.
(** gggears_wrapper.py 152-167: [z_vals[-1]]. *)
Definition k_z_last (k : core) : R := last (k_zvals k) 0.
(** gggears_wrapper.py 152-155. *)
Definition ig_center_point_bottom (g : igear) : vec := ig_center_point_at_z g (k_z_first (ig_core g)).
(** gggears_wrapper.py 157-162. *)
Definition ig_center_point_middle (g : igear) : vec :=
  ig_center_point_at_z g (/ 2 * (k_z_first (ig_core g) + k_z_last (ig_core g))).
(** gggears_wrapper.py 164-167. *)
Definition ig_center_point_top (g : igear) : vec := ig_center_point_at_z g (k_z_last (ig_core g)).
(** 182-196: z_height. *)
Definition ig_z_height (g : igear) : R :=
  let k := ig_core g in
  let c0 := g_center (k_slice k (nth 1 (k_zvals k) 0)) in
  let c1 := g_center (k_slice k (nth 0 (k_zvals k) 0)) in
  norm (apply_gear_transform (vsub c0 c1) (k_trf k)).
(** 232-236: proportion_to_z is [k_p2z] of Wrapper.v. *)

(** ** Helical gears *)

(** What HelicalGear.__init__ (1096-1115) and HelicalRingGear.__init__ (1278-1298) pass on; [ring]
    is the inside_teeth argument (left out, hence False, by HelicalGear). *)
Definition helical_param (p : iparam) (ring : bool) : iparam :=
  let b := ip_helix p in
  mkIP (ip_teeth p) (ip_height p) b 0 (ip_center p) (ip_angle p)
    (ip_module p / cos b) (ip_undercut p) (ip_root_fillet p) (ip_tip_fillet p) (ip_tip_trunc p)
    (ip_shift p * cos b) (ip_add p * cos b) (ip_ded p * cos b)
    (atan (tan (ip_alpha p) / cos b)) (ip_backlash p) (ip_crown p) ring (ip_zanchor p).

(** A helical gear: an involute gear whose section angles are a function [h_angle]. gggears_wrapper.py 1096-1140. *)
Record hgear : Type := mkH { h_gear : igear; h_angle : R -> R }.

(** gggears_wrapper.py 1118-1159: assigning [gearcore.z_vals]. *)
Definition with_zvals (k : core) (zs : list R) : core :=
  mkCore (k_tooth k) (k_module k) zs (k_cone k) (k_gamma k) (k_rp k) (k_tooth_angle k)
    (k_spiral k) (k_hd k) (k_ha k) (k_ho k) (k_alpha k) (k_trf k).
(** gggears_wrapper.py 1278-1298: assigning [gearcore.tooth_param]. *)
Definition with_tooth (k : core) (t : tooth_param) : core :=
  mkCore t (k_module k) (k_zvals k) (k_cone k) (k_gamma k) (k_rp k) (k_tooth_angle k)
    (k_spiral k) (k_hd k) (k_ha k) (k_ho k) (k_alpha k) (k_trf k).
(** gggears_wrapper.py 1278-1298: assigning [h_o]. *)
Definition with_ho (k : core) (h : R) : core :=
  mkCore (k_tooth k) (k_module k) (k_zvals k) (k_cone k) (k_gamma k) (k_rp k) (k_tooth_angle k)
    (k_spiral k) (k_hd k) (k_ha k) h (k_alpha k) (k_trf k).

(** np.searchsorted (left) on an ascending list. gggears_wrapper.py 1118-1140. *)
Fixpoint search_left (zs : list R) (x : R) : nat :=
  match zs with [] => O | z :: r => if Rlt_dec z x then S (search_left r x) else O end.
(** np.insert of one element. gggears_wrapper.py 1118-1140. *)
Definition np_insert (zs : list R) (i : nat) (x : R) : list R := firstn i zs ++ x :: skipn i zs.

(** 1118-1140 (and 1301-1323): herringbone. *)
Definition herringbone_mod (k : core) (angle : R -> R) : core * (R -> R) :=
  let zmax := k_z_last k in let zmin := k_z_first k in
  let zmid := (zmax + zmin) / 2 in
  (with_zvals k (np_insert (k_zvals k) (search_left (k_zvals k) zmid) zmid),
   fun z => angle (zmid - Rabs (zmid - z))).

(** [np.linspace(a, b, n)]. gggears_wrapper.py 1141-1159. *)
Definition np_linspace (a b : R) (n : nat) : list R :=
  match n with
  | O => [] | S O => [a]
  | S m => map (fun i => a + INR i * ((b - a) / INR m)) (seq 0 (S m))
  end.
(** [np.unique]: sorted without repetitions. gggears_wrapper.py 1141-1159. *)
Fixpoint u_insert (x : R) (l : list R) : list R :=
  match l with
  | [] => [x]
  | y :: r => if Rlt_dec x y then x :: l else if Req_EM_T x y then l else y :: u_insert x r
  end.
(** gggears_wrapper.py 1141-1159. *)
Definition np_unique (l : list R) : list R := fold_right u_insert [] l.
(** gggears_wrapper.py 1141-1159: [np.max]. *)
Definition list_max (l : list R) : R := fold_right Rmax (hd 0 l) l.
(** gggears_wrapper.py 1141-1159: [np.min]. *)
Definition list_min (l : list R) : R := fold_right Rmin (hd 0 l) l.

(** 1143-1160: correction for too much twist. *)
Definition twist_of (zs : list R) (angle : R -> R) : R :=
  let samples := map angle (np_linspace (nth 0 zs 0) (nth 1 zs 0) 20) in
  Rabs (list_max samples - list_min samples).
(** gggears_wrapper.py 1141-1159. *)
Definition twist_zvals (zs : list R) (angle : R -> R) : list R :=
  let twist := twist_of zs angle in
  if Rlt_dec (2 * PI) twist then
    let z_add := Z.to_nat (floorZ (twist / (2 * PI)) * (Z.of_nat (length zs) - 1))%Z in
    np_unique (np_linspace (nth 0 zs 0) (last zs 0) (z_add + length zs) ++ zs)
  else zs.

(** 1074-1160: HelicalGear.__init__. *)
Definition helical_new (p : iparam) (herringbone : bool) : hgear :=
  let g := ig_new (helical_param p false) in
  let angle0 := fun z => z * k_spiral (ig_core g) in
  let (k1, angle1) := if herringbone then herringbone_mod (ig_core g) angle0 else (ig_core g, angle0) in
  mkH (mkIG (ig_in g) (with_zvals k1 (twist_zvals (k_zvals k1) angle1))) angle1.

(** 1258-1327: HelicalRingGear.__init__; its update_tooth_param always says inside_teeth. *)
Definition helical_ring_new (p : iparam) (herringbone : bool) : hgear :=
  let q := ip_normalise (helical_param p true) in
  let k := with_tooth (calc_params q) (tp_make (ip_teeth q) 0 true) in
  let angle0 := fun z => z * k_spiral k in
  let (k1, angle1) := if herringbone then herringbone_mod k angle0 else (k, angle0) in
  mkH (mkIG q k1) angle1.

(** 942-983: SpurRingGear.__init__; [orc] is outside_ring_coefficient. *)
Definition spur_ring_new (p : iparam) (orc : R) : igear :=
  let q := ip_normalise (mkIP (ip_teeth p) (ip_height p) 0 0 (ip_center p) (ip_angle p)
    (ip_module p) (ip_undercut p) (ip_root_fillet p) (ip_tip_fillet p) (ip_tip_trunc p)
    (ip_shift p) (ip_add p) (ip_ded p) (ip_alpha p) (ip_backlash p) (ip_crown p) true (ip_zanchor p)) in
  mkIG q (with_ho (calc_params q) (- orc)).

(** 1166-1176: HelicalGear.mesh_to. *)
Definition helical_mesh_to (g o : hgear) (sg so a : R) (target : vec) : res hgear :=
  bind (ig_mesh_to (h_gear g) (h_gear o) sg so a target 0 0) (fun g1 =>
  let T := k_trf (ig_core g1) in
  bind (normalize_r (vsub (g_center (k_trf (ig_core (h_gear o)))) (g_center T))) (fun axis =>
  let ang := ip_helix (ig_in g1) + ip_helix (ig_in (h_gear o)) in
  let m := mmul (from_rotvec (smul ang axis)) (g_orient T) in
  Ok (mkH (ig_place g1 (mkG (g_center T) m (g_scale T) (g_angle T))) (h_angle g)))).
