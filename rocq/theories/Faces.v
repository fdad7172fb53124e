(** The faces of a cylindrical gear: gggears_convert.py 75-166 (the sections, their conversion and the side surfaces) and
    gggears_build123d.py 66-88 (the branch for cone angle 0), 195-218 (gen_side_surfaces), 220-232 (gen_outside_ring), 289-315
    (generate_cover for cone angle 0), 492-504 (gen_splines), with curve.py 422-424 (del_inactive_curves) and 1641-1649
    (from_curve_chain).

    Generating the profile of a section is not repeated here: [prof z] stands for the extended profile that
    [GearRefProfileExtended.from_refprofile(gear.curve_gen_at_z(z), ...)] gives at height [z] and [trf z] for its transform.  Both are
    functions of [z]: evaluating a recipe has no side effect (C08).  The results of the optimisers are arbitrary functions of
    their input.  A face of build123d is its control net; an edge is its control polygon with weights, or a circle about the z
    axis; [Face.rotate], [Wire.rotate] turn the control points.  Sewing the faces together ([bd.Shell], [bd.Solid]) is not
    modelled. *)
From Coq Require Import Reals ZArith List Bool Arith.
From Verif Require Import Num Vec Coords Transform Bezier Interp Curve Chain Build Convert.
Import ListNotations.
Open Scope R_scope.

(** A loop that appends the result of a call; an exception ends it. gggears_convert.py 77-89, 91-107, 111-165. *)
Fixpoint res_map {A B} (f : A -> res B) (l : list A) : res (list B) :=
  match l with
  | [] => Ok []
  | a :: r => bind (f a) (fun b => bind (res_map f r) (fun bs => Ok (b :: bs)))
  end.

(** The heights of the sections of each segment, gggears_convert.py 91-98. *)
Definition z_stacks (z : list R) (tw : nat) : list (list R) :=
  map (fun ii => linspace (nth ii z 0) (nth (S ii) z 0) tw) (seq 0 (length z - 1)).

(** A patch of a side surface: the rows of its control points and of its weights. gggears_convert.py 277-285. *)
Definition face : Type := (list (list vec) * list (list R))%type.
(** The control points and weights of a Bezier edge. gggears_build123d.py 492-504. *)
Definition bez_edge : Type := (list vec * list R)%type.
(** [face.rotate(Axis.Z, angle)], gggears_build123d.py 208-213. *)
Definition turn_face (deg : R) (f : face) : face := (map (map (mapp (rotz (to_rad deg)))) (fst f), snd f).
(** [wire.rotate(Axis.Z, angle)], gggears_build123d.py 297-303. *)
Definition turn_edge (deg : R) (e : bez_edge) : bez_edge := (map (mapp (rotz (to_rad deg))) (fst e), snd e).
(** [patches[:-3]], gggears_build123d.py 203. *)
Definition kept (ps : list face) : list face := firstn (length ps - 3) ps.

(** [is_closed] of a chain of active NURBS curves whose members meet, curve.py 688-690: its first and its last point are those
    of the control polygon. *)
Definition nb_is_closed (l : nurbs) : bool :=
  if Rlt_dec (norm (vsub (hd ORIGIN (nb_points l)) (last (nb_points l) ORIGIN))) (DELTA / 100) then true else false.

(** The surface of a cover: its wire and, for a ring gear, the circle (radius, height) around it. gggears_build123d.py 289-315. *)
Record cover : Type := mkCover { cv_wire : list bez_edge; cv_circle : option (R * R) }.
(** The faces handed to [bd.Shell]; of the outside ring its radius and its two heights. gggears_build123d.py 76-88. *)
Record cylinder : Type := mkCyl { cy_sides : list face; cy_ring : option (R * R * R); cy_bottom : cover; cy_top : cover }.

Section Builder.
  (** The optimisers of fit_nurb_points and of solve_surface, [n_points_hz], [n_points_vert], [oversampling_ratio]. *)
  Variables (optC : curve -> arr2 -> arr1) (optS : arr3 -> arr1) (nhz nv : nat) (ratio : R).
  (** The profiles of the sections and their transforms. *)
  Variables (prof : R -> cv_profile) (trf : R -> gtransform).
  (** num_teeth_act, num_teeth, pitch_angle, inside_teeth, limits.h_o and z_vals of the gear. *)
  Variables (n_act : Z) (num pitch : R) (inside : bool) (h_o : R) (zs : list R).

  (** [gearprofile.transform] applied to a point, gggears_convert.py 306-333. *)
  Definition place (z : R) (p : vec) : vec := apply_gear_transform p (trf z).
  (** generate_nurbs, gggears_convert.py 75-89: the closed profile of a section. *)
  Definition closed_members (z : R) : res (list nurb_curve) := nurb_profile_closed optC nhz ratio (place z) (prof z).
  (** The members of [profile] (gggears_core.py 357-361) of the converted section. *)
  Definition open_members (z : R) : res (list nurb_curve) :=
    let tooth := convert_list optC nhz ratio true (cp_tooth (prof z)) in
    let single i := nc_transform (place z) (convert_curve optC 4 (3 / 2) i) in
    bind (tooth_mirror tooth) (fun mirror =>
    Ok (single (cp_rd (prof z)) :: map (nc_transform (place z)) tooth ++
        single (cp_ra (prof z)) :: map (nc_transform (place z)) mirror)).

  (** gggears_convert.py 113-124: one section as a chain of its active members. *)
  Definition section_chain (z : R) : res nurbs := bind (closed_members z) (fun l => Ok (surface_members l)).
  (** [points_combined], gggears_convert.py 128-132. *)
  Definition stack_target (stack : list nurbs) : arr3 := fun i a b =>
    let l := nth i stack [] in
    match b with 3%nat => nth a (nb_weights l) 0 | _ => coord (nth a (nb_points l) ORIGIN) b end.
  (** gggears_convert.py 134-164: the net and the knots of one segment; the fast solver only gives the first guess. *)
  Definition side_surface (stack : list nurbs) : res (list (list vec) * list (list R) * list nat) :=
    if (n_z_tweens nv ratio =? 2)%nat then side_surface_two_layers stack
    else match stack with
    | [] => Err ValueError
    | first :: _ =>
        if equal_lengths (map (fun l => length (nb_points l)) stack) then
          let n := length (nb_points first) in
          let tg := stack_target stack in
          let P := surf_points tg (length stack) n nv (optS tg) in
          Ok (net_points n nv P, net_weights n nv P, nb_knots first)
        else Err ValueError
    end.
  (** generate_surface_points_sides, gggears_convert.py 109-166. *)
  Definition side_surf_data : res (list (list (list vec) * list (list R) * list nat)) :=
    res_map (fun hs => bind (res_map section_chain hs) side_surface) (z_stacks zs (n_z_tweens nv ratio)).

  (** gen_side_surfaces, gggears_build123d.py 195-218. *)
  Definition side_face_list (data : list (list (list vec) * list (list R) * list nat)) : list face :=
    flat_map (fun j => flat_map (fun k =>
        let '(pts, ws, knots) := nth k data ([], [], []) in
        map (turn_face (pitch * INR j * 180 / PI)) (kept (get_patches pts ws knots)))
      (seq 0 (length zs - 1))) (seq 0 (Z.to_nat n_act)).

  (** [r_o], gggears_build123d.py 221 and 306-309. *)
  Definition outside_radius : R := - h_o + num / 2.
  (** generate_cover for cone angle 0, gggears_build123d.py 289-315: from_curve_chain, del_inactive_curves, enforce_continuity,
      gen_splines, one turned copy per tooth. *)
  Definition generate_cover (z : R) : res cover :=
    bind (open_members z) (fun l =>
    let c := map nc_pair (filter nc_active l) in
    let e := nb_enforce (nb_is_closed (join_all c)) c in
    Ok (mkCover (flat_map (fun j => map (turn_edge (pitch * 180 / PI * INR j)) e) (seq 0 (Z.to_nat n_act)))
                (if inside then Some (outside_radius, vz (g_center (trf z))) else None))).

  (** GearBuilder.__init__ for cone angle 0, gggears_build123d.py 66-88: the sides are fitted first, the covers belong to the
      first section of the first and to the last section of the last segment. *)
  Definition build_cylinder : res cylinder :=
    let hs := z_stacks zs (n_z_tweens nv ratio) in
    bind side_surf_data (fun data =>
    bind (generate_cover (hd 0 (hd [] hs))) (fun bot =>
    bind (generate_cover (last (last hs []) 0)) (fun top =>
    Ok (mkCyl (side_face_list data)
              (if inside then Some (outside_radius, hd 0 zs, last zs 0) else None) bot top)))).
End Builder.
