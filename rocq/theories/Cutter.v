(** Building a bevel gear: gggears_build123d.py 89-107 (the branch for cone angles other than 0 up to the side surfaces), with
    gggears_convert.py 49-73 (GearToNurbs.__init__), and gggears_wrapper.py 624-628 (the call).

    The faces are those of Faces.v, the sections those of Part.v.  [gear.z_vals] is an attribute of the gear that outlives the
    call, so the gear after the call is part of the result.  The blank that the faces cut (107) is in Blank.v; the split
    itself and the choice among its results (110-127) are not modelled. *)
From Coq Require Import Reals ZArith List Bool Arith.
From Verif Require Import Num Vec Coords Transform Params Interp Curve Chain GearMath Tooth Wrapper Info RefLines Profile Build Convert
  Fillet Teeth Report Faces Part.
Import ListNotations.
Open Scope R_scope.

(** gggears_build123d.py 93-96: [zdiff], then the last height and the first height. *)
Definition extend_zvals (ratio : R) (zs : list R) : list R :=
  let zdiff := last zs 0 - hd 0 zs in
  let zs1 := set_last zs (last zs 0 + ratio * zdiff) in
  set_first zs1 (hd 0 zs1 - ratio * zdiff).
(** Assigning [gear.z_vals], gggears_build123d.py 95-96 and 104. *)
Definition h_with_zvals (h : hgear) (zs : list R) : hgear :=
  mkH (mkIG (ig_in (h_gear h)) (with_zvals (ig_core (h_gear h)) zs)) (h_angle h).

Section Cutter.
  Variables (sv : solver) (fs : fsolver) (ts : tsolver) (mid : profile -> R).
  Variables (optC : curve -> arr2 -> arr1) (optS : arr3 -> arr1).

  (** GearToNurbs.__init__ with the default oversampling_ratio = 3, gggears_convert.py 49-73: all sections are made first. *)
  Definition to_nurbs (h : hgear) (nhz nv : nat) : res (list (list (list vec) * list (list R) * list nat)) :=
    let zs := k_zvals (ig_core (h_gear h)) in
    bind (res_map (res_map (gear_section sv fs ts mid h)) (z_stacks zs (n_z_tweens nv 3))) (fun _ =>
    side_surf_data optC optS nhz nv 3 (section_at sv fs ts mid h) (section_trf h) zs).
  (** GearBuilder.__init__ for other cone angles than 0, gggears_build123d.py 92-105: the side surfaces, and the gear
      afterwards.  An exception leaves before line 104; the loop of gen_side_surfaces uses the number of the restored z_vals. *)
  Definition cutting_faces (h : hgear) (nhz nv : nat) (ratio : R) : res (list face) * hgear :=
    let k := ig_core (h_gear h) in
    let longer := h_with_zvals h (extend_zvals ratio (k_zvals k)) in
    match to_nurbs longer nhz nv with
    | Err e => (Err e, longer)
    | Ok data =>
        let restored := h_with_zvals longer (k_zvals k) in
        (Ok (side_face_list (num_teeth_act (k_tooth k)) (tp_pitch_angle (k_tooth k)) (k_zvals (ig_core (h_gear restored))) data), restored)
    end.
  (** GearBuilder as build_part() calls it, gggears_wrapper.py 594-628 and gggears_build123d.py 65. *)
  Definition build_bevel (h : hgear) : res (list face) * hgear := cutting_faces h 4 (default_layers h) (1 / 100).
End Cutter.
