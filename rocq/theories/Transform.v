(** Model of the transformation classes in src/gggears/gggears_base_classes.py (lines 47-254). *)
From Coq Require Import Reals Lra.
From Verif Require Import Num Vec.
Open Scope R_scope.

(** gggears_base_classes.py 47-64: dataclass TransformData (defaults: ORIGIN, UNIT3X3, 1.0).
    [Transform] (125-152) has the same fields. *)
Record transform : Type := mkT { t_center : vec; t_orient : mat; t_scale : R }.
(** gggears_base_classes.py 47-63. *)
Definition t_default : transform := mkT ORIGIN UNIT3X3 1.

(** 66-76: x_axis, y_axis, z_axis are the columns of the orientation. *)
Definition t_x_axis (T : transform) : vec := col1 (t_orient T).
(** gggears_base_classes.py 69-71. *)
Definition t_y_axis (T : transform) : vec := col2 (t_orient T).
(** gggears_base_classes.py 73-75. *)
Definition t_z_axis (T : transform) : vec := col3 (t_orient T).

(** 105-122: [points @ orientation.T * scale + center]. *)
Definition apply_transform (p : vec) (T : transform) : vec :=
  vadd (smul (t_scale T) (vmat p (mtrans (t_orient T)))) (t_center T).

(** 84-94 and 133-143 (TransformData.__mul__ / Transform.__mul__ with a transform operand). *)
Definition t_mul (A B : transform) : transform :=
  mkT (vadd (t_center A) (smul (t_scale A) (mapp (t_orient A) (t_center B))))
      (mmul (t_orient A) (t_orient B))
      (t_scale A * t_scale B).

(** 96-102 and 145-152 (invert): note the factor [* self.scale] on the centre. *)
Definition t_invert (A : transform) : transform :=
  let inv_orient := mtrans (t_orient A) in
  mkT (smul (t_scale A) (mapp (mscale (-1) inv_orient) (t_center A)))
      inv_orient
      (1 / t_scale A).

(** 78-82: affine_matrix, a 4x4 array: 3x3 block, translation column, last row 0 0 0 1. *)
Record affine : Type := mkAff { a_lin : mat; a_tr : vec; a_row : R * R * R * R }.
(** gggears_base_classes.py 77-81. *)
Definition t_affine (T : transform) : affine :=
  mkAff (mscale (t_scale T) (t_orient T)) (t_center T) (0, 0, 0, 1).

(** 155-176: GearTransformData / GearTransform (221-254): an additional angle, default 0. *)
Record gtransform : Type := mkG { g_center : vec; g_orient : mat; g_scale : R; g_angle : R }.
(** gggears_base_classes.py 155-176. *)
Definition g_default : gtransform := mkG ORIGIN UNIT3X3 1 0.

(** gggears_base_classes.py 65-67. *)
Definition g_x_axis (T : gtransform) : vec := col1 (g_orient T).
(** gggears_base_classes.py 69-71. *)
Definition g_y_axis (T : gtransform) : vec := col2 (g_orient T).
(** gggears_base_classes.py 73-75. *)
Definition g_z_axis (T : gtransform) : vec := col3 (g_orient T).

(** 212-218: apply_gear_transform. *)
Definition apply_gear_transform (p : vec) (T : gtransform) : vec :=
  vadd (smul (g_scale T) (vmat (vmat p (mtrans (rotz (g_angle T)))) (mtrans (g_orient T))))
       (g_center T).

(** 178-185: affine_matrix of gear transforms. *)
Definition g_affine (T : gtransform) : affine :=
  mkAff (mscale (g_scale T) (mmul (g_orient T) (rotz (g_angle T)))) (g_center T) (0, 0, 0, 1).

(** 187-198: GearTransformData.__mul__ (no rotation of other.center by the angle). *)
Definition gd_mul (A B : gtransform) : gtransform :=
  mkG (vadd (g_center A) (smul (g_scale A) (mapp (g_orient A) (g_center B))))
      (mmul (g_orient A) (g_orient B))
      (g_scale A * g_scale B)
      (g_angle A + g_angle B).

(** 200-209: GearTransformData.invert. *)
Definition gd_invert (A : gtransform) : gtransform :=
  let inv_orient := mtrans (g_orient A) in
  let inv_angle := rotz (- g_angle A) in
  mkG (smul (g_scale A) (mapp (mmul (mscale (-1) inv_orient) inv_angle) (g_center A)))
      inv_orient
      (1 / g_scale A)
      (- g_angle A).

(** 228-243: GearTransform.__mul__. *)
Definition g_mul (A B : gtransform) : gtransform :=
  mkG (vadd (g_center A)
         (smul (g_scale A) (mapp (mmul (g_orient A) (rotz (g_angle A))) (g_center B))))
      (mmul (g_orient A) (g_orient B))
      (g_scale A * g_scale B)
      (g_angle A + g_angle B).

(** 245-254: GearTransform.invert, [-center @ orientation @ rot_z / scale]. *)
Definition g_invert (A : gtransform) : gtransform :=
  let inv_orient := g_orient A in
  let inv_angle := rotz (g_angle A) in
  mkG (smul (/ g_scale A) (vmat (vmat (vopp (g_center A)) inv_orient) inv_angle))
      (mtrans inv_orient)
      (1 / g_scale A)
      (- g_angle A).

(** A GearTransform is also a TransformData; [apply_transform] on it ignores the angle. gggears_base_classes.py 155-176. *)
Definition g_base (T : gtransform) : transform := mkT (g_center T) (g_orient T) (g_scale T).

Ltac tr_ring := intros;
  repeat match goal with T : transform |- _ => destruct T | T : gtransform |- _ => destruct T end;
  cbn [t_center t_orient t_scale g_center g_orient g_scale g_angle] in *; vec_ring.
