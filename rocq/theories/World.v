(** Model of a running program that uses gears (gggears_wrapper.py): a store of NumPy arrays and
    of InvoluteGear objects, and the public operations on them.  The arrays ORIGIN and UNIT3X3
    of defs.py are the arrays number 0: constructors and reset_location store them without
    copying.  What build123d computes is not modelled. *)
From Coq Require Import Reals List ZArith Lia Lra Bool.
From Verif Require Import Num Vec Transform Params Coords GearMath Tooth Wrapper.
Import ListNotations.
Open Scope R_scope.

(** An InvoluteGear object.  [o_in] is [self.inputparam] except its centre, which is the array
    [o_icen]; [o_core] is [self.gearcore] except its transform, kept in [o_cen] and [o_ori] (arrays),
    [o_scale] and [o_angle].  [o_owner] is the gear whose [self] the closures made by calc_params
    captured (crowning_func, 498-505). *)
Record gobj : Type := mkO {
  o_in : iparam; o_icen : nat; o_core : core;
  o_cen : nat; o_ori : nat; o_scale : R; o_angle : R; o_owner : nat }.
(** gggears_wrapper.py 312-743: all arrays and all gears a program holds. *)
Record world : Type := mkW { w_vecs : list vec; w_mats : list mat; w_gears : list gobj }.
(** defs.py 34, 48. *)
Definition w_init : world := mkW [ORIGIN] [UNIT3X3] [].

(** Store update for gggears_wrapper.py 312-743. *)
Fixpoint set_nth {A} (i : nat) (x : A) (l : list A) : list A :=
  match l with [] => [] | a :: l' => match i with O => x :: l' | S i' => a :: set_nth i' x l' end end.

(** gggears_wrapper.py 312-743: reading an array. *)
Definition w_vec (w : world) (l : nat) : vec := nth l (w_vecs w) ORIGIN.
(** gggears_wrapper.py 312-743: reading an array. *)
Definition w_mat (w : world) (l : nat) : mat := nth l (w_mats w) UNIT3X3.

(** gggears_wrapper.py 289-309: the field [center] of [inputparam]. *)
Definition with_center (p : iparam) (c : vec) : iparam :=
  mkIP (ip_teeth p) (ip_height p) (ip_helix p) (ip_cone p) c (ip_angle p)
    (ip_module p) (ip_undercut p) (ip_root_fillet p) (ip_tip_fillet p) (ip_tip_trunc p)
    (ip_shift p) (ip_add p) (ip_ded p) (ip_alpha p) (ip_backlash p) (ip_crown p)
    (ip_inside p) (ip_zanchor p).
(** gggears_wrapper.py 289-309: the field [crowning] of [inputparam]. *)
Definition with_crown (p : iparam) (c : R) : iparam :=
  mkIP (ip_teeth p) (ip_height p) (ip_helix p) (ip_cone p) (ip_center p) (ip_angle p)
    (ip_module p) (ip_undercut p) (ip_root_fillet p) (ip_tip_fillet p) (ip_tip_trunc p)
    (ip_shift p) (ip_add p) (ip_ded p) (ip_alpha p) (ip_backlash p) c
    (ip_inside p) (ip_zanchor p).
(** gggears_wrapper.py 51-53: [gearcore.module = m]. *)
Definition with_module (k : core) (m : R) : core :=
  mkCore (k_tooth k) m (k_zvals k) (k_cone k) (k_gamma k) (k_rp k) (k_tooth_angle k)
    (k_spiral k) (k_hd k) (k_ha k) (k_ho k) (k_alpha k) (k_trf k).

(** What the attributes of a gear currently read as. gggears_wrapper.py 490-592: [gearcore.transform], with the arrays read. *)
Definition o_trf (w : world) (o : gobj) : gtransform :=
  mkG (w_vec w (o_cen o)) (w_mat w (o_ori o)) (o_scale o) (o_angle o).
(** gggears_wrapper.py 490-592. *)
Definition o_view (w : world) (o : gobj) : igear :=
  mkIG (with_center (o_in o) (w_vec w (o_icen o))) (with_trf (o_core o) (o_trf w o)).
(** gggears_wrapper.py 490-592. *)
Definition view (w : world) (i : nat) : option igear := option_map (o_view w) (nth_error (w_gears w) i).
(** Half tooth angle of the slice at z (525): evaluated with the owner's input parameters. *)
Definition slice_pia (w : world) (i : nat) (z : R) : option R :=
  match nth_error (w_gears w) i with
  | None => None
  | Some o => match nth_error (w_gears w) (o_owner o) with
              | None => None
              | Some ow => Some (crowning (ip_height (o_in ow)) (ip_crown (o_in ow))
                                   (k_rp (o_core o)) z (k_tooth_angle (o_core o)))
              end
  end.

(** 490-592: calc_params replaces gearcore; its transform stores the input's centre array and
    (dataclass default, gggears_base_classes.py 62) the array UNIT3X3. *)
Definition o_calc (w : world) (i : nat) (o : gobj) : gobj :=
  mkO (o_in o) (o_icen o) (calc_params (with_center (o_in o) (w_vec w (o_icen o))))
      (o_icen o) 0 (ip_module (o_in o)) (ip_angle (o_in o)) i.

(** gggears_wrapper.py 641-716: storing a new placement. *)
Definition o_move (o : gobj) (cen ori : nat) (ang : R) : gobj :=
  mkO (o_in o) (o_icen o) (o_core o) cen ori (o_scale o) ang (o_owner o).

(** The public operations.  [New p d]: [d] tells that the centre argument is left out.
    [AddCenter i v] is [gear.center += v], which adds to the array in place;
    [FillOrient i m] is [gear.gearcore.transform.orientation[:] = m].
    [SetCrown i c] is [gear.inputparam.crowning = c]; [Calc i] is [gear.calc_params()]. gggears_wrapper.py 312-743. *)
Inductive op : Type :=
| New (p : iparam) (default_center : bool)
| MeshTo (i j : nat) (sg so a : R) (target : vec) (backlash bias : R)
| Reset (i : nat)
| SetCenter (i : nat) (v : vec)
| AddCenter (i : nat) (v : vec)
| SetAngle (i : nat) (a : R)
| SetOrient (i : nat) (m : mat)
| FillOrient (i : nat) (m : mat)
| Boundary (i : nat)
| Copy (i : nat)
| SetModule (i : nat) (m : R)
| SetCone (i : nat) (c : R)
| SetCrown (i : nat) (c : R)
| Calc (i : nat).

(** gggears_wrapper.py 312-743: looking up a gear. *)
Definition w_get (w : world) (i : nat) : res gobj :=
  match nth_error (w_gears w) i with Some o => Ok o | None => Err NameError end.
(** gggears_wrapper.py 312-743: storing a gear. *)
Definition w_put (w : world) (i : nat) (o : gobj) : world :=
  mkW (w_vecs w) (w_mats w) (set_nth i o (w_gears w)).
(** A new array. gggears_wrapper.py 641-716. *)
Definition w_new_vec (w : world) (v : vec) : nat * world :=
  (length (w_vecs w), mkW (w_vecs w ++ [v]) (w_mats w) (w_gears w)).
(** gggears_wrapper.py 641-716: a new matrix. *)
Definition w_new_mat (w : world) (m : mat) : nat * world :=
  (length (w_mats w), mkW (w_vecs w) (w_mats w ++ [m]) (w_gears w)).

(** gggears_build123d.py 519-546 (generate_boundary_edges): N times [transform.angle += pitch],
    N = int(round(2 pi / pitch)), on the gear's own transform (wrapper 724-740).  The pitch is
    that of the recipe, 2 pi / number of teeth. *)
Definition boundary_N (k : core) : nat := Z.to_nat (roundZ (2 * PI / (PI / k_rp k))).
(** gggears_build123d.py 519-546. *)
Definition boundary_angle (k : core) (a : R) : R := Nat.iter (boundary_N k) (fun x => x + PI / k_rp k) a.

(** 641-716 executed statement by statement: after the new centre is stored, [other] is read
    again (it may be the same object). *)
Definition mesh_steps (w : world) (i j : nat) (sg so a : R) (target0 : vec) (backlash bias : R) : res world :=
  bind (w_get w i) (fun g => bind (w_get w j) (fun o =>
  let vg := o_view w g in let vo := o_view w o in
  bind (normalize_r target0) (fun target =>
  let kg := ig_core vg in let ko := ig_core vo in
  let ring1 := inside_teeth (k_tooth kg) in let ring2 := inside_teeth (k_tooth ko) in
  let bevel :=
    bind (bevel_placement target (k_cone_data kg) (k_cone_data ko)
            (ip_inside (ig_in vg)) (ip_inside (ig_in vo)) 0) (fun v0 =>
    let (lc, w1) := w_new_vec w v0 in
    let w1 := w_put w1 i (o_move g lc (o_ori g) (o_angle g)) in
    bind (w_get w1 j) (fun o1 =>
    bind (calc_mesh_orientation (k_cone kg) (k_cone ko) (c_R (k_recipe_cone kg)) (o_trf w1 o1)
            (ip_inside (ig_in vg)) (ip_inside (ig_in vo)) target 0) (fun m =>
    let (lm, w2) := w_new_mat w1 m in
    let w2 := w_put w2 i (o_move g lc lm (o_angle g)) in
    bind (w_get w2 i) (fun g2 => bind (w_get w2 j) (fun o2 =>
    let ang := calc_mesh_angle (o_trf w2 g2) (o_trf w2 o2) (k_pitch_angle kg) (k_pitch_angle ko) ring1 ring2 in
    Ok (w_put w2 i (o_move g lc lm ang))))))) in
  let planar :=
    let distance := mesh_dist (ig_r_base vg) (ig_r_base vo) (orb ring1 ring2) a in
    let (lc, w1) := w_new_vec w (vadd (smul distance target) (g_center (o_trf w o))) in
    let w1 := w_put w1 i (o_move g lc (o_ori g) (o_angle g)) in
    bind (w_get w1 j) (fun o1 =>
    let w2 := w_put w1 i (o_move g lc (o_ori o1) (o_angle g)) in
    bind (w_get w2 i) (fun g2 => bind (w_get w2 j) (fun o2 =>
    let ang := calc_mesh_angle (o_trf w2 g2) (o_trf w2 o2) (k_pitch_angle kg) (k_pitch_angle ko) ring1 ring2
               + bias / 2 * backlash / ig_r_base (o_view w2 g2) in
    Ok (w_put w2 i (o_move g lc (o_ori o1) ang))))) in
  if Req_EM_T (k_cone kg) 0 then (if Req_EM_T (k_cone ko) 0 then planar else bevel) else bevel))).

(** gggears_wrapper.py 312-743. *)
Definition step (w : world) (c : op) : res world :=
  match c with
  | New p d =>
    (* 385-435 *)
    let p' := ip_normalise p in
    let (lc, w1) := if d then (O, w) else w_new_vec w (ip_center p) in
    let i := length (w_gears w1) in
    let o := o_calc w1 i (mkO p' lc (calc_params p') 0 0 1 0 i) in
    Ok (mkW (w_vecs w1) (w_mats w1) (w_gears w1 ++ [o]))
  | MeshTo i j sg so a target bl bias => mesh_steps w i j sg so a target bl bias
  | Reset i =>
    (* 718-722 *)
    bind (w_get w i) (fun o => Ok (w_put w i (o_move o 0 0 0)))
  | SetCenter i v =>
    (* 80-87; the assigned array is new *)
    bind (w_get w i) (fun o =>
      let (lc, w1) := w_new_vec w v in Ok (w_put w1 i (o_move o lc (o_ori o) (o_angle o))))
  | AddCenter i v =>
    bind (w_get w i) (fun o =>
      Ok (mkW (set_nth (o_cen o) (vadd (w_vec w (o_cen o)) v) (w_vecs w)) (w_mats w) (w_gears w)))
  | SetAngle i a =>
    (* 173-180 *)
    bind (w_get w i) (fun o => Ok (w_put w i (o_move o (o_cen o) (o_ori o) a)))
  | SetOrient i m =>
    bind (w_get w i) (fun o =>
      let (lm, w1) := w_new_mat w m in Ok (w_put w1 i (o_move o (o_cen o) lm (o_angle o))))
  | FillOrient i m =>
    bind (w_get w i) (fun o =>
      Ok (mkW (w_vecs w) (set_nth (o_ori o) m (w_mats w)) (w_gears w)))
  | Boundary i =>
    bind (w_get w i) (fun o =>
      Ok (w_put w i (o_move o (o_cen o) (o_ori o) (boundary_angle (o_core o) (o_angle o)))))
  | Copy i =>
    (* 742-743: deepcopy copies arrays (an array referenced twice stays one array), not functions *)
    bind (w_get w i) (fun o =>
      let (li, w1) := w_new_vec w (w_vec w (o_icen o)) in
      let (lc, w2) := if Nat.eqb (o_cen o) (o_icen o) then (li, w1)
                      else w_new_vec w1 (w_vec w (o_cen o)) in
      let (lm, w3) := w_new_mat w2 (w_mat w (o_ori o)) in
      Ok (mkW (w_vecs w3) (w_mats w3)
            (w_gears w3 ++ [mkO (o_in o) li (o_core o) lc lm (o_scale o) (o_angle o) (o_owner o)])))
  | SetModule i m =>
    (* 48-51 *)
    bind (w_get w i) (fun o =>
      Ok (w_put w i (mkO (o_in o) (o_icen o) (with_module (o_core o) m)
                         (o_cen o) (o_ori o) (o_scale o) (o_angle o) (o_owner o))))
  | SetCone i c =>
    (* 73-75: gearcore.cone is a copy made by the recipe call (core 950-951) *)
    bind (w_get w i) (fun o => Ok w)
  | SetCrown i c =>
    bind (w_get w i) (fun o =>
      Ok (w_put w i (mkO (with_crown (o_in o) c) (o_icen o) (o_core o)
                         (o_cen o) (o_ori o) (o_scale o) (o_angle o) (o_owner o))))
  | Calc i => bind (w_get w i) (fun o => Ok (w_put w i (o_calc w i o)))
  end.

(** gggears_wrapper.py 312-743: a sequence of calls. *)
Fixpoint run (w : world) (cs : list op) : res world :=
  match cs with [] => Ok w | c :: r => bind (step w c) (fun w1 => run w1 r) end.
