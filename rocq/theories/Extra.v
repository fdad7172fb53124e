(** Model of remaining helper functions: numerical derivatives of any order and Hermite fits (curve.py 206-238, 757-780),
    the winding index (curve.py 1046-1069), the arc functions of function_generators.py 263-305. *)
From Coq Require Import Reals Lra List ZArith Bool.
From Coquelicot Require Import Complex.
From Verif Require Import Num Vec Coords Interp Curve Bezier GearMath.
Import ListNotations.
Open Scope R_scope.

(** ** Derivatives, curve.py 206-238 *)

(** 225-231: [numeric_diff] calls its argument; the derivative of order [n - 1] that 236 hands over is an array, and
    calling an array raises TypeError. The inner derivative is evaluated first. *)
Definition derivative_n (c : curve) (s direction : R) (n : Z) (delta : R) : res vec :=
  if (n <=? 1)%Z then Ok (c_derivative c s direction delta) else Err TypeError.

(** ** Hermite fits *)

(** curve.py 757-764: the rows of [points]. *)
Definition fit_hermite_cubic (c : curve) : list vec :=
  let p0 := c_eval c 0 in let p3 := c_eval c 1 in
  [p0; vadd p0 (smul (/ 3) (c_derivative c 0 1 (/ 10000)));
   vsub p3 (smul (/ 3) (c_derivative c 1 (-1) (/ 10000))); p3].

(** curve.py 767-780; [x] is [sol.x], the answer of [root]. *)
Definition fit_hermite_quadratic (x : R * R) (c : curve) : list vec :=
  let p0 := c_eval c 0 in let p2 := c_eval c 1 in
  let d1 := smul (/ 3) (c_derivative c 0 1 (/ 10000)) in
  [p0; vadd p0 (smul (fst x) d1); p2].
(** curve.py 775: the function handed to [root]. *)
Definition quadratic_target (c : curve) (x : R * R) : vec :=
  let d1 := smul (/ 3) (c_derivative c 0 1 (/ 10000)) in
  let d2 := smul (/ 3) (c_derivative c 1 (-1) (/ 10000)) in
  vsub (vsub (vadd (c_eval c 0) (smul (fst x) d1)) (c_eval c 1)) (smul (snd x) d2).

(** ** Winding index, curve.py 1046-1069 *)

(** 1050: the complex numbers of a point. *)
Definition to_complex (p : vec) : C := (vx p, vy p).
(** 1049-1050: the samples, without the last one; [k] counts modulo [n] as np.roll does. *)
Definition index_sample (c : curve) (n : nat) (k : nat) : C := to_complex (c_eval c (INR (k mod n) / INR n)).
(** 1051: [(np.roll(cpoints, -1) - np.roll(cpoints, 1)) / 2] in row [k]; [k + n - 1] is the row before [k]. *)
Definition index_diff (p : nat -> C) (n k : nat) : C := Cdiv (Cminus (p (k + 1)%nat) (p (k + n - 1)%nat)) (RtoC 2).
(** 1054, 1059-1066: the sum. *)
Definition index_sum (p : nat -> C) (n : nat) (ce : C) : C :=
  fold_right Cplus (RtoC 0) (map (fun k => Cdiv (index_diff p n k) (Cminus (p k) ce)) (seq 0 n)).
(** 1052-1055 for one centre; a sample on the centre makes the result inf or nan, reported as ZeroDivisionError. The
    branch for an array of centres (1056-1069) applies the same formula to each row. *)
Definition curve_index (c : curve) (center : vec) (n : nat) : res R :=
  let p := index_sample c n in
  if existsb (fun k => if Req_EM_T (Cmod (Cminus (p k) (to_complex center))) 0 then true else false) (seq 0 n)
  then Err ZeroDivisionError
  else Ok (Cmod (index_sum p n (to_complex center)) * 1 / (2 * PI)).

(** ** Arc functions *)

(** function_generators.py 293-305. Collinear points divide by zero: nan, reported as ZeroDivisionError. *)
Definition arc_from_2_point_center (t : R) (p0 p1 center : vec) (revolutions : R) : res vec :=
  bind (normalize_r (cross (vsub p0 center) (vsub p1 center))) (fun axis =>
  let d_angle := arctan2 (norm (cross (vsub p0 center) (vsub p1 center))) (dot (vsub p1 center) (vsub p0 center))
    + revolutions * PI * 2 in
  Ok (vadd center (mapp (from_rotvec (smul d_angle (smul t axis))) (vsub p0 center)))).

(** function_generators.py 263-290. For equal points [dp] is not set: UnboundLocalError, a NameError. An axis along the
    chord gives nan in the centre. *)
Definition arc_from_2_point (t : R) (p0 p1 : vec) (curvature : R) (axis : vec) (revolutions : R) : res vec :=
  if Req_EM_T curvature 0 then Ok (vadd p0 (smul t (vsub p1 p0)))
  else if vec_eq_dec (vsub p1 p0) ORIGIN then Err NameError
  else
    let dp := normalize (vsub p1 p0) in
    bind (normalize_r (vsub axis (smul (dot axis dp) dp))) (fun ax =>
    let d := norm (vsub p1 p0) in
    let r0 := / curvature in
    let r := if Rlt_dec (Rabs r0) (d / 2) then d / 2 * sign r0 else r0 in
    let h := sqrt (r * r - d / 2 * (d / 2)) * sign r in
    let center := vsub (smul (/ 2) (vadd p0 p1)) (smul h (cross dp ax)) in
    let d_angle := arctan2 (norm (cross (vsub p0 center) (vsub p1 center))) (dot (vsub p1 center) (vsub p0 center))
      + revolutions * PI * 2 in
    Ok (vadd center (mapp (from_rotvec (smul d_angle (smul t ax))) (vsub p0 center)))).
