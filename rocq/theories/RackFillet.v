(** The fillets of the rack outline (gggears_wrapper.py 2147-2161) and the turn that places a rack (2203-2215, 2405-2417).

    build123d's part is taken by its documented meaning: [vertices().sort_by(bd.Axis.Y)] is some arrangement of the
    vertices with ascending y, [bd.fillet] at an inner vertex of an open wire replaces the corner by an arc of the given
    radius that touches both edges at points of theirs, and has no result if there is no such arc or the vertex is an end
    of the wire.  [Rotation(X=a, Y=b, Z=c, ordering=Extrinsic.ZYX)] hands [(a, b, c)] in this order to the kernel, as
    [Location(p, [a, b, c], Extrinsic.ZYX)] does: [a] is the turn about the first axis of the ordering, z. *)
From Coq Require Import Reals Lra List ZArith Permutation Sorted.
From Verif Require Import Num Vec Transform Params Coords Curve GearMath Tooth Wrapper Rack Build.
Import ListNotations.
Open Scope R_scope.

(** Edges of a wire: a straight one, or the shorter arc about [c] from [p] to [q]. gggears_wrapper.py 2147-2161. *)
Inductive piece : Type := Seg (p q : vec) | Bow (c p q : vec).
(** gggears_wrapper.py 2147-2161. *)
Definition p_start (x : piece) : vec := match x with Seg p _ => p | Bow _ p _ => p end.
(** gggears_wrapper.py 2147-2161. *)
Definition p_end (x : piece) : vec := match x with Seg _ q => q | Bow _ _ q => q end.
(** [wire.vertices()], gggears_wrapper.py 2153, 2160. *)
Definition vertices (w : list piece) : list vec :=
  match w with [] => [] | x :: _ => p_start x :: map p_end w end.
(** [sort_by(bd.Axis.Y)], gggears_wrapper.py 2153, 2160. *)
Definition by_y (l s : list vec) : Prop := Permutation l s /\ Sorted (fun p q => vy p <= vy q) s.

(** [bd.fillet]: the corner [v] between the edges from [p] and to [q], the points of tangency [t], [t'] and the centre [c].
    gggears_wrapper.py 2150-2161. *)
Definition tangent_arc (radius : R) (p v q t c t' : vec) : Prop :=
  p <> v /\ q <> v /\
  (exists s, 0 <= s <= 1 /\ t = vadd v (smul s (vsub p v))) /\
  (exists s, 0 <= s <= 1 /\ t' = vadd v (smul s (vsub q v))) /\
  norm (vsub t c) = radius /\ norm (vsub t' c) = radius /\
  dot (vsub t c) (vsub p v) = 0 /\ dot (vsub t' c) (vsub q v) = 0 /\ vz c = vz v.
(** gggears_wrapper.py 2150-2161. *)
Definition filleted (radius : R) (v : vec) (w w' : list piece) : Prop :=
  exists l1 p q l2 t c t', w = l1 ++ Seg p v :: Seg v q :: l2 /\
    w' = l1 ++ Seg p t :: Bow c t t' :: Seg t' q :: l2 /\ tangent_arc radius p v q t c t'.

(** [ref_line_1], gggears_wrapper.py 2147. *)
Definition rk_sharp (r : rack) : list piece :=
  [Seg (rk_pt_a0 r) (rk_pt_a r); Seg (rk_pt_a r) (rk_pt_d r); Seg (rk_pt_d r) (rk_pt_c r)].
(** gggears_wrapper.py 2150-2156: the vertex with index -2. *)
Definition rk_tip_filleted (radius : R) (w w' : list piece) : Prop :=
  if Rlt_dec 0 radius then exists s, by_y (vertices w) s /\ filleted radius (nth (length s - 2) s ORIGIN) w w'
  else w' = w.
(** gggears_wrapper.py 2157-2161: the vertex with index 1. *)
Definition rk_root_filleted (radius : R) (w w' : list piece) : Prop :=
  if Rlt_dec 0 radius then exists s, by_y (vertices w) s /\ filleted radius (nth 1 s ORIGIN) w w'
  else w' = w.
(** gggears_wrapper.py 2147-2161: [w] may be [ref_line_2] for these fillet radii. *)
Definition rk_outline (r : rack) (tip root : R) (w : list piece) : Prop :=
  exists w1, rk_tip_filleted tip (rk_sharp r) w1 /\ rk_root_filleted root w1 w.

(** gggears_wrapper.py 2205-2212 (2408-2415): the turn of the finished rack, and the placing of a point of the module 1 solid. *)
Definition rk_rotation (r : rack) : mat :=
  let '(a, b, c) := as_euler_zyx (rk_orient r) in
  loc_rot (location_extrinsic_zyx ORIGIN (a * RAD2DEG) (b * RAD2DEG) (c * RAD2DEG)).
(** gggears_wrapper.py 2203-2213. *)
Definition rk_place_part (r : rack) (p : vec) : vec :=
  vadd (mapp (rk_rotation r) (smul (rk_module r) (vadd p (smul (rk_offset r) (smul rk_pitch UP))))) (rk_pos r).
