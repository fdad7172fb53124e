(** Conversion of profiles to NURBS: src/gggears/curve.py lines 783-946 (fit_nurb_points,
    fit_nurb_optim, convert_curve_nurbezier) and src/gggears/gggears_convert.py (solve_surface,
    solve_surface_fast, NurbSurfaceData.get_patches, generate_surface_points_sides).

    A NumPy array of shape (a, b, ...) is an index function; entries outside its shape are never
    read by the functions here.  [scipy.optimize.minimize] is not modelled: its result [sol.x] is
    an arbitrary array. *)
From Coq Require Import Reals Lra Lia List Bool Arith.
From Verif Require Import Num Vec Coords Bezier Interp Curve Chain.
Import ListNotations.
Open Scope R_scope.

(** ** NumPy arrays. curve.py 783-904 and gggears_convert.py 168-263: arrays with one, two and three indices. *)
Definition arr1 := nat -> R.
(** curve.py 783-904: an array with two indices. *)
Definition arr2 := nat -> nat -> R.
(** gggears_convert.py 168-263: an array with three indices. *)
Definition arr3 := nat -> nat -> nat -> R.

(** [np.sum] over one axis of length [n]. curve.py 830-841. *)
Fixpoint sumn (n : nat) (f : nat -> R) : R := match n with O => 0 | S n' => sumn n' f + f n' end.

(** [x[i] = v], [x[a:a+n] = v] and [p[i] = row]. curve.py 791-819. *)
Definition assign (x : arr1) (i : nat) (v : R) : arr1 := fun j => if (j =? i)%nat then v else x j.
(** curve.py 791-819. *)
Definition assign_slice (x : arr1) (a n : nat) (v : arr1) : arr1 :=
  fun j => if (a <=? j)%nat && (j <? a + n)%nat then v (j - a)%nat else x j.
(** curve.py 791-819. *)
Definition set_row {A} (p : nat -> A) (i : nat) (row : A) : nat -> A := fun k => if (k =? i)%nat then row else p k.
(** [for k in range(a, b)]. curve.py 791-819. *)
Definition for_range {S0} (a b : nat) (body : nat -> S0 -> S0) (s : S0) : S0 :=
  fold_left (fun s k => body k s) (seq a (b - a)) s.

(** First [m] entries as a list, and column [c] of the first [m] rows. curve.py 783-904. *)
Definition entries (m : nat) (w : arr1) : list R := map w (seq 0 m).
(** curve.py 783-904. *)
Definition col (m : nat) (P : arr2) (c : nat) : list R := entries m (fun i => P i c).

(** function_generators.py 369-379, 394-424, 427-444, 447-463, 466-493 for one [t] and one
    coordinate column [c] of a point array of any width (Bezier.v has the same functions for
    three coordinates). *)
Definition wcol (m : nat) (P : arr2) (W : arr1) (c : nat) : list R := entries m (fun i => P i c * W i).
(** function_generators.py 369-379. *)
Definition nurb_col (t : R) (m : nat) (P : arr2) (W : arr1) (c : nat) : R :=
  bezierdc t (wcol m P W c) / bezierdc t (entries m W).
(** function_generators.py 394-424. *)
Definition nurb_diff_t_col (t : R) (m : nat) (P : arr2) (W : arr1) (c : nat) : R :=
  let wb := bezierdc t (entries m W) in
  (wb * bezierdc t (diff_step (INR m - 1) (wcol m P W c)) -
   bezierdc t (diff_step (INR m - 1) (entries m W)) * bezierdc t (wcol m P W c)) / (wb * wb).
(** function_generators.py 427-463. *)
Definition nurb_diff_p_col (t : R) (m : nat) (W : arr1) (k : nat) : R :=
  nth k (bezier_diff_p t m) 0 * W k / bezierdc t (entries m W).
(** function_generators.py 466-493. *)
Definition nurb_diff_w_col (t : R) (m : nat) (P : arr2) (W : arr1) (k c : nat) : R :=
  let dp := nth k (bezier_diff_p t m) 0 in let bw := bezierdc t (entries m W) in
  dp * P k c / bw - dp / bw * nurb_col t m P W c.
(** bezier_diff_t, 382-391, with n = 1 (at least two points). *)
Definition bez_diff_t_col (t : R) (m : nat) (P : arr2) (c : nat) : R :=
  bezierdc t (diff_step (INR m - 1) (col m P c)).

(** ** fit_nurb_points, curve.py lines 783-862 *)
Section Fit.
  (** [target_points] (N rows), [N_target], [N_Dim], [n_points]. *)
  Variables (target : arr2) (N Nd n : nat).

  (** point_allocator, lines 791-806. *)
  Definition fit_points (x : arr1) : arr2 :=
    let p := set_row (set_row (fun _ _ => 0) 0 (target 0%nat)) (n - 1) (target (N - 1)%nat) in
    for_range 1 (n - 1) (fun k p => set_row p k (fun j => x (Nd * (k - 1) + j)%nat)) p.
  (** curve.py 791-805. *)
  Definition fit_weights (x : arr1) : arr1 :=
    for_range 1 (n - 1) (fun k w => assign w k (x (Nd * (n - 2) + k - 1)%nat)) (fun _ => 1).
  (** curve.py 791-805. *)
  Definition fit_t (x : arr1) : arr1 :=
    assign (assign_slice (fun _ => 0) 1 (N - 2) (fun i => x ((Nd + 1) * (n - 2) + i)%nat)) (N - 1) 1.

  (** inverse_allocator, lines 808-820. *)
  Definition fit_size : nat := ((Nd + 1) * (n - 2) + N - 2)%nat.
  (** curve.py 807-819. *)
  Definition fit_inverse (P : arr2) (W T : arr1) : arr1 :=
    let x := for_range 1 (n - 1) (fun k x =>
               assign (for_range 0 Nd (fun j x => assign x (Nd * (k - 1) + j) (P k j)) x)
                      (Nd * (n - 2) + k - 1) (W k)) (fun _ => 0) in
    assign_slice x ((Nd + 1) * (n - 2)) (N - 2) (fun i => T (i + 1)%nat).

  (** cost_fun_combined, lines 831-842 ([scaler] is 1). *)
  Definition fit_diff (x : arr1) : arr2 :=
    fun i c => target i c - nurb_col (fit_t x i) n (fit_points x) (fit_weights x) c.
  (** curve.py 830-841. *)
  Definition fit_cost (x : arr1) : R := sumn N (fun i => sumn Nd (fun c => fit_diff x i c ^ 2)) / 2.
  (** curve.py 830-841. *)
  Definition fit_jac (x : arr1) : arr1 :=
    let P := fit_points x in let W := fit_weights x in let T := fit_t x in let diff := fit_diff x in
    let dp k c := sumn N (fun i => - nurb_diff_p_col (T i) n W k * diff i c) in
    let dt i := sumn Nd (fun c => diff i c * - nurb_diff_t_col (T i) n P W c) in
    let dw k := sumn N (fun i => sumn Nd (fun c => diff i c * - nurb_diff_w_col (T i) n P W k c)) in
    fit_inverse dp dw dt.
End Fit.

(** Rows of a point array as points. curve.py 855-861. *)
Definition row_points (n : nat) (P : arr2) : list vec :=
  map (fun k => V (P k 0%nat) (P k 1%nat) (P k 2%nat)) (seq 0 n).
(** curve.py 864-904: component [j] of a point. *)
Definition coord (p : vec) (j : nat) : R := match j with O => vx p | S O => vy p | _ => vz p end.

(** fit_nurb_optim, curve.py lines 865-904: [opt target] is the optimiser's result [sol.x]; the
    initial guess only reaches the optimiser. *)
Definition fit_count (n : nat) (samp : R) : nat := Z.to_nat (ceilZ ((INR n - 2) * 2 * samp) + 2).
(** curve.py 864-904. *)
Definition fit_target (c : R -> vec) (N : nat) : arr2 := fun i j => coord (c (nth i (linspace 0 1 N) 0)) j.
(** curve.py 864-904. *)
Definition fit_nurb_optim (opt : arr2 -> arr1) (c : R -> vec) (n : nat) (samp : R) : list vec * list R :=
  let N := fit_count n samp in
  let tg := fit_target c N in
  let x := opt tg in
  (row_points n (fit_points tg N 3 n x), entries n (fit_weights 3 n x)).
(** The same with force_2D=True: two fitted columns, the third is the mean z of the samples. *)
Definition fit_nurb_optim_2D (opt : arr2 -> arr1) (c : R -> vec) (n : nat) (samp : R) : list vec * list R :=
  let N := fit_count n samp in
  let tg := fit_target c N in
  let x := opt tg in
  let P := fit_points tg N 2 n x in
  let z := sumn N (fun i => tg i 2%nat) / INR N in
  (map (fun k => V (P k 0%nat) (P k 1%nat) z) (seq 0 n), entries n (fit_weights 2 n x)).

(** ** convert_curve_nurbezier, curve.py lines 907-946 *)
(** A curve object as seen by the [isinstance] tests: [CTrans f tgt own] is a TransformedCurve
    with its target and its own attributes (t_0, t_1, active, table). *)
Inductive cv_input : Type :=
| CPlain (c : curve)
| CTrans (f : vec -> vec) (tgt : cv_input) (own : curve).
(** curve.py 907-945: the attributes read from the object itself. *)
Definition cv_curve (i : cv_input) : curve := match i with CPlain c => c | CTrans _ _ own => own end.
(** curve.py 1530-1555: a NurbCurve, as its points, weights and [_active]. *)
Record nurb_curve : Type := mkNC { nc_points : list vec; nc_weights : list R; nc_active : bool }.
(** curve.py 1553-1555. *)
Definition nc_transform (f : vec -> vec) (c : nurb_curve) : nurb_curve :=
  mkNC (map f (nc_points c)) (nc_weights c) (nc_active c).

(** The branch for single curves.  [opt] may depend on the curve, [n], [samp] are the keyword
    arguments (defaults 4 and 1.5). *)
Fixpoint convert_curve (opt : curve -> arr2 -> arr1) (n : nat) (samp : R) (i : cv_input) : nurb_curve :=
  match i with
  | CPlain c =>
      let fit := let '(p, w) := fit_nurb_optim (opt c) (c_eval c) n samp in mkNC p w (c_act c) in
      match c_shape c with
      | SNurb pts ws => mkNC pts ws (c_act c)
      | SLine _ _ => mkNC [c_eval c 0; c_eval c 1] [1; 1] (c_act c)
      | SArc _ a ce _ =>
          if Rlt_dec (Rabs a) PI
          then let '(p, w) := calc_nurbezier_arc (c_eval c 0) (c_eval c 1) ce in mkNC p w (c_act c)
          else fit
      | SGen _ => fit
      end
  | CTrans f tgt own => nc_transform f (convert_curve opt n samp tgt)
  end.
(** The branch for iterables, lines 915-920. *)
Definition convert_list (opt : curve -> arr2 -> arr1) (n : nat) (samp : R) (skip_inactive : bool)
  (l : list cv_input) : list nurb_curve :=
  map (convert_curve opt n samp) (filter (fun i => c_act (cv_curve i) || negb skip_inactive) l).

(** ** solve_surface and solve_surface_fast, gggears_convert.py lines 168-267 *)
Section Surface.
  (** [target_points] of shape (o, n, 4), [n_points_vert] = m. *)
  Variables (target : arr3) (o n m : nat).

  (** point_allocator, lines 175-184 (227-232): reshape is row-major. *)
  Definition surf_points (x : arr1) : arr3 :=
    let p := set_row (set_row (fun _ _ _ => 0) 0 (target 0%nat)) (m - 1) (target (o - 1)%nat) in
    fun i => if (1 <=? i)%nat && (i <? m - 1)%nat then (fun a b => x (((i - 1) * n + a) * 4 + b)%nat) else p i.
  (** gggears_convert.py 176-183. *)
  Definition surf_t (x : arr1) : arr1 := fun i => x ((m - 2) * n * 4 + i)%nat.

  (** inverse_allocator, lines 186-190 (234-237). *)
  Definition surf_size : nat := ((m - 2) * n * 4 + o)%nat.
  (** gggears_convert.py 234-237. *)
  Definition surf_inverse_fast (P : arr3) : arr1 :=
    assign_slice (fun _ => 0) 0 ((m - 2) * n * 4)
      (fun e => P (e / (n * 4) + 1)%nat ((e / 4) mod n)%nat (e mod 4)%nat).
  (** gggears_convert.py 185-189. *)
  Definition surf_inverse (P : arr3) (t : arr1) : arr1 :=
    assign_slice (surf_inverse_fast P) ((m - 2) * n * 4) (o - 2) t.

  (** reshape(m, -1) of an (m, n, 4) array, and back. *)
  Definition flat (P : arr3) : arr2 := fun i c => P i (c / 4)%nat (c mod 4)%nat.
  (** gggears_convert.py 191-202: reshape. *)
  Definition unflat (F : arr2) : arr3 := fun i a b => F i (a * 4 + b)%nat.

  (** cost_fun, lines 192-204 and 239-250. *)
  Definition surf_diff (P : arr3) (t : arr1) : arr2 :=
    fun i c => flat target (i + 1)%nat c - bezierdc (t i) (col m (flat P) c).
  (** gggears_convert.py 191-202, 239-249. *)
  Definition surf_cost_of (P : arr3) (t : arr1) : R :=
    sumn (o - 2) (fun i => sumn (n * 4) (fun c => surf_diff P t i c * surf_diff P t i c)).
  (** gggears_convert.py 191-202, 239-249. *)
  Definition surf_dp (P : arr3) (t : arr1) : arr3 :=
    unflat (fun k c => sumn (o - 2) (fun i => - nth k (bezier_diff_p (t i) m) 0 * surf_diff P t i c)).
  (** gggears_convert.py 191-202. *)
  Definition surf_dt (P : arr3) (t : arr1) : arr1 :=
    fun i => sumn (n * 4) (fun c => surf_diff P t i c * - bez_diff_t_col (t i) m (flat P) c).
  (** gggears_convert.py 191-202. *)
  Definition surf_cost (x : arr1) : R := surf_cost_of (surf_points x) (surf_t x).
  (** gggears_convert.py 191-202. *)
  Definition surf_jac (x : arr1) : arr1 :=
    surf_inverse (surf_dp (surf_points x) (surf_t x)) (surf_dt (surf_points x) (surf_t x)).
  (** [np.linspace(0, 1, o)[1:-1]]. *)
  Definition fast_t : arr1 := fun i => nth (i + 1) (linspace 0 1 o) 0.
  (** gggears_convert.py 239-249. *)
  Definition surf_cost_fast (x : arr1) : R := surf_cost_of (surf_points x) fast_t.
  (** gggears_convert.py 239-249. *)
  Definition surf_jac_fast (x : arr1) : arr1 := surf_inverse_fast (surf_dp (surf_points x) fast_t).

  (** points_out and weights_out, lines 214-215: the control net row by row. *)
  Definition net_points (P : arr3) : list (list vec) :=
    map (fun i => row_points n (P i)) (seq 0 m).
  (** gggears_convert.py 214-215. *)
  Definition net_weights (P : arr3) : list (list R) :=
    map (fun i => entries n (fun a => P i a 3%nat)) (seq 0 m).
End Surface.

(** [n_z_tweens], gggears_convert.py lines 57-59. *)
Definition n_z_tweens (nv : nat) (ratio : R) : nat := Z.to_nat (ceilZ ((INR nv - 2) * ratio) + 2).

(** ** NurbSurfaceData.get_patches, lines 277-285 *)
Fixpoint get_patches (pts : list (list vec)) (ws : list (list R)) (knots : list nat) :
  list (list (list vec) * list (list R)) :=
  match knots with
  | u0 :: ((u1 :: _) as r) =>
      (map (fun row => slice row u0 (u1 + 1)) pts, map (fun row => slice row u0 (u1 + 1)) ws) :: get_patches pts ws r
  | _ => []
  end.

(** generate_surface_points_sides, lines 113-141, two layers per segment (n_z_tweens = 2):
    [np.stack] needs rows of equal length; the knots are those of the first profile. *)
Definition equal_lengths (l : list nat) : bool :=
  match l with [] => true | a :: r => forallb (Nat.eqb a) r end.
(** gggears_convert.py 109-141. *)
Definition side_surface_two_layers (stack : list nurbs) : res (list (list vec) * list (list R) * list nat) :=
  match stack with
  | [] => Err ValueError
  | first :: _ =>
      if equal_lengths (map (fun l => length (nb_points l)) stack)
      then Ok (map nb_points stack, map nb_weights stack, nb_knots first)
      else Err ValueError
  end.

(** ** gearprofile_to_nurb, gggears_convert.py lines 286-343, for an extended profile *)
(** NurbCurve.reverse, curve.py 1544-1547. *)
Definition nc_reverse (c : nurb_curve) : nurb_curve := mkNC (rev (nc_points c)) (rev (nc_weights c)) (nc_active c).
(** curve.py 1530-1539: points and weights of a NurbCurve. *)
Definition nc_pair (c : nurb_curve) : list vec * list R := (nc_points c, nc_weights c).
(** curve.py 1544-1547: new points and weights. *)
Definition nc_with (pw : list vec * list R) (c : nurb_curve) : nurb_curve := mkNC (fst pw) (snd pw) (nc_active c).
(** [points * np.array([1, -1, 1])]. *)
Definition mirror_y (p : vec) : vec := V (vx p) (- vy p) (vz p).
(** Lines 299-301: copy, the points setter of NURBSCurve, CurveChain.reverse (curve.py 542-545).
    [points] of a chain without members raises. *)
Definition tooth_mirror (tooth : list nurb_curve) : res (list nurb_curve) :=
  match tooth with
  | [] => Err ValueError
  | _ =>
    let l := map nc_pair tooth in
    bind (nb_set_points l (map mirror_y (nb_points l))) (fun l' =>
    Ok (rev (map (fun pc => nc_reverse (nc_with (fst pc) (snd pc))) (combine l' tooth))))
  end.
(** The curves of an extended profile that [profile_closed] uses; the tooth curve is the list
    given by [get_curves()]. gggears_core.py 364-432. *)
Record cv_profile : Type := mkCP {
  cp_tooth : list cv_input; cp_ra : cv_input; cp_rd : cv_input; cp_ro : cv_input;
  cp_ro0 : cv_input; cp_ro2 : cv_input }.
(** The members of [profile_closed] (gggears_core.py 378-390) of the converted profile.  Single
    curves are converted with the default arguments n_points=4, samp_ratio=1.5; [gt] is the gear
    transform, applied to each curve. *)
Definition nurb_profile_closed (opt : curve -> arr2 -> arr1) (n : nat) (samp : R) (gt : vec -> vec) (p : cv_profile) :
  res (list nurb_curve) :=
  let tooth := convert_list opt n samp true (cp_tooth p) in
  let single i := nc_transform gt (convert_curve opt 4 (3 / 2) i) in
  bind (tooth_mirror tooth) (fun mirror =>
  Ok (single (cp_rd p) :: map (nc_transform gt) tooth ++ single (cp_ra p) :: map (nc_transform gt) mirror ++
      [nc_reverse (single (cp_ro2 p)); nc_reverse (single (cp_ro p)); single (cp_ro0 p)])).
(** generate_surface_points_sides, gggears_convert.py lines 113-124: the active members. *)
Definition surface_members (l : list nurb_curve) : nurbs := map nc_pair (filter nc_active l).
