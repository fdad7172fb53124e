(** function_generators.py 47-128: involute_func, the older function for involutes (no caller inside the package).

    NumPy's shapes matter here: RIGHT, DOWN, OUT have the shape (3,), the offset [ov] the shape (3, 1), and their sum
    is broadcast to the shape (3, 3).  An array of the shape (3, 3) is a [mat]. *)
From Coq Require Import Reals List Lra.
From Verif Require Import Num Vec.
Import ListNotations.
Open Scope R_scope.

(** function_generators.py 80 and 87: the sum of an array [w] of the shape (3,) and a column [ov] of the shape (3, 1):
    entry (i, j) is [w[j] + ov[i]]. *)
Definition bcast (w ov : vec) : mat :=
  M (vx w + vx ov) (vy w + vx ov) (vz w + vx ov)
    (vx w + vy ov) (vy w + vy ov) (vz w + vy ov)
    (vx w + vz ov) (vy w + vz ov) (vz w + vz ov).
(** function_generators.py 80: transpose(). *)
Definition mtrans (A : mat) : mat := M (m11 A) (m21 A) (m31 A) (m12 A) (m22 A) (m32 A) (m13 A) (m23 A) (m33 A).
(** The rows of an array of the shape (3, 3); function_generators.py 80. *)
Definition row1 (A : mat) : vec := V (m11 A) (m12 A) (m13 A).
(** function_generators.py 80. *)
Definition row2 (A : mat) : vec := V (m21 A) (m22 A) (m23 A).
(** function_generators.py 80. *)
Definition row3 (A : mat) : vec := V (m31 A) (m32 A) (m33 A).
(** An array from its rows; function_generators.py 80. *)
Definition of_rows (a b c : vec) : mat := M (vx a) (vy a) (vz a) (vx b) (vy b) (vz b) (vx c) (vy c) (vz c).
(** [Rotation.apply] on an array of the shape (3, 3): each row is a vector; function_generators.py 80. *)
Definition apply_rows (Q A : mat) : mat := of_rows (mapp Q (row1 A)) (mapp Q (row2 A)) (mapp Q (row3 A)).
(** Adding an array of the shape (3,) to one of the shape (3, 3) adds it to each row; function_generators.py 112. *)
Definition add_rows (A : mat) (v : vec) : mat := of_rows (vadd (row1 A) v) (vadd (row2 A) v) (vadd (row3 A) v).
(** All entries, and [np.reshape(x, (1, 3))[0]]; function_generators.py 123. *)
Definition entries (A : mat) : list R := [m11 A; m12 A; m13 A; m21 A; m22 A; m23 A; m31 A; m32 A; m33 A].
(** function_generators.py 123. *)
Definition reshape13 (l : list R) : res vec := match l with [x; y; z] => Ok (V x y z) | _ => Err ValueError end.

(** What involute_val returns: an array of the shape (3, 3), or one of the shape (3,). *)
Inductive arr : Type := Arr33 (A : mat) | Arr3 (v : vec).

(** function_generators.py 57-123: involute_val. *)
Definition involute_val (r a rad_offs tan_offs z_offs csph val : R) : res arr :=
  let rot_z := rotz (val + a) in
  let ov := V rad_offs tan_offs z_offs in
  if Req_EM_T csph 0 then
    let d := smul (r * val) DOWN in
    Ok (Arr33 (mtrans (apply_rows rot_z (mtrans (bcast (vadd (smul r RIGHT) d) ov)))))
  else
    let RR := 1 / csph in
    let gam := r * val / RR in
    let v1 := bcast (smul RR RIGHT) ov in
    let beta := asin (r / RR) in
    let z_center := smul (cos beta * RR) OUT in
    let v2 := add_rows (mmul (roty (beta - PI / 2)) (mmul (rotz (- gam)) v1)) z_center in
    bind (reshape13 (entries (mmul rot_z v2))) (fun v => Ok (Arr3 v)).

(** 125-130, a number as parameter. *)
Definition involute_func (t r a rad_offs tan_offs z_offs csph : R) : res arr :=
  involute_val r a rad_offs tan_offs z_offs csph t.

(** 125-130, a list as parameter: the points are collected in an array of the shape (n, 3, 1).  [np.concatenate]
    refuses a point of the shape (3, 3), and [point[np.newaxis, :, :]] one of the shape (3,), so that the loop never
    gets past its first element. *)
Definition involute_func_list (t : list R) (r a rad_offs tan_offs z_offs csph : R) : res (list vec) :=
  match t with
  | [] => Ok []
  | u :: _ =>
      bind (involute_val r a rad_offs tan_offs z_offs csph u) (fun p =>
      match p with Arr33 _ => Err ValueError | Arr3 _ => Err IndexError end)
  end.
