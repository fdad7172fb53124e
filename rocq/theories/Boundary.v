(** Gear.boundary_at_z, gggears_core.py 1005-1015, for the gears of Wrapper.v and Cycloid.v. *)
From Coq Require Import Reals ZArith List.
From Verif Require Import Num Vec Transform Params Curve Chain GearMath Tooth Wrapper Profile Fillet Teeth Report Cycloid Part CycPart.
Import ListNotations.
Open Scope R_scope.

(** core 1005-1015 for the profile [p] that curve_gen_at_z() has made; [teeth] is the tooth number with its Python type. *)
Definition boundary_at_z (k : core) (teeth : pynum) (p : profile) (continuous : bool) : res curve :=
  let n := num_teeth_act (k_tooth k) in let pitch := tp_pitch_angle (k_tooth k) in
  let world q := apply_gear_transform q (k_trf k) in
  if continuous
  then bind (generate_boundary p teeth pitch (IZR n)) (fun c => Ok (n_transformed world (Prim c)))
  else Ok (n_transformed world (generate_boundary_chain p pitch (Z.to_nat n))).
(** The same for involute gears, with core 980-981. *)
Definition ig_boundary (sv : solver) (fs : fsolver) (ts : tsolver) (g : igear) (teeth : pynum) (z : R) (continuous : bool) : res curve :=
  bind (ig_profile sv fs ts g z) (fun p => boundary_at_z (ig_core g) teeth p continuous).
(** The same for cylindrical cycloid gears, with core 980-981. *)
Definition cg_boundary (sv : solver) (fs : fsolver) (top : curve -> R) (g : cgear) (teeth : pynum) (z : R) (continuous : bool) : res curve :=
  bind (cg_profile sv fs top g z) (fun p => boundary_at_z (cg_core g) teeth p continuous).
