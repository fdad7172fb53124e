(** curve.py 1561-1564 and 1640-1649: NURBSCurve.from_curve_chain. *)
From Coq Require Import Reals List Bool Lra.
From Verif Require Import Num Vec Bezier Interp Curve Chain.
Import ListNotations.
Open Scope R_scope.

(** [isinstance(curve, NurbCurve)], curve.py 1642-1644. *)
Definition is_nurb_curve (c : curve) : bool := match c_shape c with SNurb _ _ => true | _ => false end.

(** curve.py 1640-1649 with the constructor 1561-1564.  [get_curves] of a single curve is the curve itself, over which
    the comprehension cannot iterate. *)
Definition from_curve_chain (n : node) : res node :=
  match n with
  | Prim _ => Err TypeError
  | Chain _ _ =>
      if forallb is_nurb_curve (get_curves n) then Ok (new_chain (n_active n) (map Prim (get_curves n)))
      else Err ValueError
  end.
