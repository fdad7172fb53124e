(** Cutting the blank of a bevel gear and choosing among the pieces: gggears_build123d.py 109-127 (GearBuilder.__init__) and
    184-188 (gen_ref_solid for ring gears).

    A piece is a point set together with the number it is sorted by: the height of the centre of its bounding box (122-124)
    or its volume (187).  What [split] returns is a premise of the theorems: with [Keep.ALL] it returns the parts of the
    solid that the tool separates from each other. *)
From Coq Require Import Reals List Bool Arith.
From Verif Require Import Num Vec Build Blank.
Import ListNotations.
Open Scope R_scope.

(** [sorted(l, key=key)], gggears_build123d.py 122-124, 187: equal keys keep their order. *)
Fixpoint key_insert {A} (key : A -> R) (x : A) (l : list A) : list A :=
  match l with
  | [] => [x]
  | y :: r => if Rle_dec (key x) (key y) then x :: y :: r else y :: key_insert key x r
  end.
(** [sorted(l, key=key)], gggears_build123d.py 122-124, 187. *)
Definition key_sort {A} (key : A -> R) (l : list A) : list A := fold_right (key_insert key) [] l.

(** The solid that is kept, or the RuntimeError of line 115. *)
Inductive kept_solid (A : Type) : Type := Kept (a : A) | SplitFailed.
Arguments Kept {A} a. Arguments SplitFailed {A}.
(** gggears_build123d.py 113-128; [inside] is [tooth_param.inside_teeth]. *)
Definition choose_solid {A} (key : A -> R) (inside : bool) (pieces : list A) : kept_solid A :=
  if (length pieces <? 2)%nat then SplitFailed
  else match key_sort key pieces, inside with
       | x :: _, false => Kept x
       | _ :: y :: _, true => Kept y
       | _, _ => SplitFailed
       end.

(** [bounding_box().center().Z], gggears_build123d.py 123: the middle between the lowest and the highest height. *)
Definition z_extent (X : pset) (lo hi : R) : Prop :=
  (forall p, X p -> lo <= vz p <= hi) /\
  (forall e, 0 < e -> exists p, X p /\ vz p < lo + e) /\ (forall e, 0 < e -> exists p, X p /\ hi - e < vz p).
(** A piece and the height of the centre of its bounding box. gggears_build123d.py 123. *)
Definition measured (x : pset * R) : Prop := exists lo hi, z_extent (fst x) lo hi /\ snd x = (lo + hi) / 2.

(** [r_o_cone.faces().sort_by(bd.Axis.Z)[1]], gggears_build123d.py 172-174, 184: the middle one of the faces of the frustum. *)
Definition cone_side (r0 r1 h z0 : R) : pset := fun p => exists u, 0 <= u <= 1 /\ vz p = z0 + u * h /\ axial p = (1 - u) * r0 + u * r1.
