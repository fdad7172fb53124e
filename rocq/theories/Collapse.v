(** curve.py 1614-1619: NURBSCurve.update_inactive_continuity. *)
From Coq Require Import Reals List Bool Lra.
From Verif Require Import Num Vec Bezier Interp Curve Chain Profile Fillet.
Import ListNotations.
Open Scope R_scope.

(** curve.py 1618-1619: every control point becomes [p]; the lengths are not touched. *)
Definition set_all_points (c : curve) (pts : list vec) (ws : list R) (p : vec) : curve :=
  mkCurve (SNurb (map (fun _ => p) pts) ws) (c_act c) (c_t0 c) (c_t1 c) (c_ndiv c) (c_length c) (c_ts c) (c_ss c).

(** curve.py 1614-1619: the loop.  [done] are the members before index k, already rewritten.  A member that is not a
    NurbCurve has no attribute [points]. *)
Fixpoint collapse_from (a : bool) (done todo : list curve) : res (list curve) :=
  match todo with
  | [] => Ok done
  | c :: r =>
      if c_act c then collapse_from a (done ++ [c]) r
      else
        let l := map Prim (done ++ c :: r) in
        bind (n_eval (Chain a l) (fst (get_t_for_index l (length done)))) (fun p =>
        match c_shape c with
        | SNurb pts ws => collapse_from a (done ++ [set_all_points c pts ws p]) r
        | _ => Err AttributeError
        end)
  end.
(** curve.py 1614-1619. *)
Definition update_inactive_continuity (a : bool) (cs : list curve) : res (list curve) := collapse_from a [] cs.
