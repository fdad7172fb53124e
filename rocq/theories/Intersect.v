(** What the intersection searches of src/gggears/curve.py 698-740 hand to scipy. A curve is any function from the
    parameter to a point; scipy's own iteration is not modelled. *)
From Coq Require Import Reals.
From Verif Require Import Num Vec.
Open Scope R_scope.

(** curve.py 706-708: the function of three unknowns given to [root] by find_curve_intersect (EQUALITY). *)
Definition meet_target (c1 c2 : R -> vec) (t : vec) : vec := vsub (c1 (vx t)) (c2 (vy t)).

(** curve.py 711-713: [minfunc] of find_curve_intersect (MINDISTANCE). *)
Definition meet_minfunc (c1 c2 : R -> vec) (t0 t1 : R) : R :=
  let diff := smul (/ DELTA) (vsub (c1 t0) (c2 t1)) in dot diff diff.

(** curve.py 719-724: the function given to [root] by find_curve_line_intersect. *)
Definition line_target (c : R -> vec) (offset line_direction : vec) (t : R) : R :=
  norm (cross (vsub (c t) offset) line_direction).

(** curve.py 732-734: [target_func] of find_curve_plane_intersect. *)
Definition plane_target (c : R -> vec) (plane_normal offset : vec) (t : R) : R := dot (vsub (c t) offset) plane_normal.

(** curve.py 739: the function given to [minimize]. *)
Definition plane_minfunc (c : R -> vec) (plane_normal offset : vec) (t : R) : R :=
  plane_target c plane_normal offset t ^ 2.
