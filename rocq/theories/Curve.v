(** src/gggears/curve.py: single curves ([Curve], [LineCurve], [ArcCurve], [NurbCurve],
    [TransformedCurve], [MirroredCurve], [RotatedCurve]).

    A curve object is a value; methods that change an object return the new value.
    Array-valued calls ([vectorize]) are pointwise and not modelled separately.  The
    generating curve classes ([InvoluteCurve], [CycloidCurve], ...) are [SGen] with a function of
    Gen.v.  Changing an attribute such as [r] of such an object after construction, and sharing
    of a target curve between objects, is not modelled. *)
From Coq Require Import Reals Lra Lia Psatz List.
From Verif Require Import Num Vec Coords Bezier Interp.
Import ListNotations.
Open Scope R_scope.

(** What [self.function(t, **params)] computes: a general function (lines 71-73), [line_func]
    (1087-1093), [arcfunc] (1133-1136, with the stored rotation matrix) and
    [NurbCurve.function] (1541-1542). *)
Inductive shape : Type :=
| SGen (f : R -> vec)
| SLine (p0 p1 : vec)
| SArc (radius angle : R) (center : vec) (rot : mat)
| SNurb (pts : list vec) (ws : list R).

(** curve.py 71-73, 1087-1093, 1133-1136, 1541-1542. *)
Definition shape_fun (sh : shape) (t : R) : vec :=
  match sh with
  | SGen f => f t
  | SLine p0 p1 => vadd (smul (1 - t) p0) (smul t p1)
  | SArc r a c rot => vadd (mapp rot (mapp (rotz (a * t)) (smul r RIGHT))) c
  | SNurb pts ws => nurbezier t pts ws
  end.

(** Attributes of [Curve], lines 63-85. *)
Record curve : Type := mkCurve {
  c_shape : shape;
  c_act : bool;
  c_t0 : R;
  c_t1 : R;
  c_ndiv : nat;
  c_length : R;
  c_ts : list R;   (* t2s_lookup["t"] *)
  c_ss : list R    (* t2s_lookup["s"] *) }.

(** curve.py 71-73. *)
Definition c_fun (c : curve) : R -> vec := shape_fun (c_shape c).

(** Running length of a polyline: [np.cumsum(np.append([0], norms))], lines 185-190. *)
Fixpoint polylen (acc : R) (pts : list vec) : list R :=
  match pts with
  | p :: ((q :: _) as r) => acc :: polylen (acc + norm (vsub q p)) r
  | [p] => [acc]
  | [] => []
  end.

(** [Curve.update_lengths], lines 177-198; [LineCurve.update_lengths], 1095-1098;
    [ArcCurve.update_lengths], 1138-1141. *)
Definition update_lengths (c : curve) : curve :=
  match c_shape c with
  | SLine p0 p1 =>
      mkCurve (c_shape c) (c_act c) (c_t0 c) (c_t1 c) (c_ndiv c)
        (norm (vsub p1 p0) * Rabs (c_t1 c - c_t0 c)) [c_t0 c; c_t1 c] [0; 1]
  | SArc r a _ _ =>
      mkCurve (c_shape c) (c_act c) (c_t0 c) (c_t1 c) (c_ndiv c)
        (r * a) [c_t0 c; c_t1 c] [0; 1]
  | _ =>
      let ts := linspace (c_t0 c) (c_t1 c) (c_ndiv c) in
      let cl := polylen 0 (map (c_fun c) ts) in
      let len := last cl 0 in
      mkCurve (c_shape c) (c_act c) (c_t0 c) (c_t1 c) (c_ndiv c) len ts
        (if Req_EM_T len 0 then linspace 0 1 (c_ndiv c) else map (fun x => x / len) cl)
  end.

(** [Curve.__init__], lines 53-88: inactive curves keep the initial table. *)
Definition new_curve (sh : shape) (act : bool) (t0 t1 : R) (ndiv : nat) : curve :=
  let c := mkCurve sh act t0 t1 ndiv 0 [-1000000; 1000000] [-1000000; 1000000] in
  if act then update_lengths c else c.

(** [Curve.s2t], lines 97-136 (scalar case). *)
Definition s2t (c : curve) (s : R) : R :=
  let ss := c_ss c in let ts := c_ts c in let n := length ss in
  if Rlt_dec s 0 then interpolate s (nth 0 ss 0) (nth 1 ss 0) (nth 0 ts 0) (nth 1 ts 0)
  else if Rlt_dec 1 s then
    interpolate s (nth (n - 1) ss 0) (nth (n - 2) ss 0) (nth (n - 1) ts 0) (nth (n - 2) ts 0)
  else np_interp s ss ts.

(** [Curve.t2s], lines 138-175 (scalar case). *)
Definition t2s (c : curve) (t : R) : R :=
  let ss := c_ss c in let ts := c_ts c in let n := length ts in
  if Rlt_dec t (c_t0 c) then interpolate t (nth 0 ts 0) (nth 1 ts 0) (nth 0 ss 0) (nth 1 ss 0)
  else if Rlt_dec (c_t1 c) t then
    interpolate t (nth (n - 1) ts 0) (nth (n - 2) ts 0) (nth (n - 1) ss 0) (nth (n - 2) ss 0)
  else np_interp t ts ss.

(** [Curve.__call__], lines 90-95. *)
Definition c_eval (c : curve) (s : R) : vec := c_fun c (s2t c s).

(** [Curve.reverse], lines 200-204, and [NurbCurve.reverse], lines 1544-1547. *)
Definition c_reverse (c : curve) : curve :=
  match c_shape c with
  | SNurb pts ws =>
      mkCurve (SNurb (rev pts) (rev ws)) (c_act c) (c_t0 c) (c_t1 c) (c_ndiv c) (c_length c)
        (c_ts c) (c_ss c)
  | _ =>
      mkCurve (c_shape c) (c_act c) (c_t1 c) (c_t0 c) (c_ndiv c) (c_length c)
        (rev (c_ts c)) (c_ss c)
  end.

(** curve.py 200-204, 252-266: new [t_0], [t_1], everything else kept. *)
Definition with_domain (c : curve) (t0 t1 : R) : curve :=
  mkCurve (c_shape c) (c_act c) t0 t1 (c_ndiv c) (c_length c) (c_ts c) (c_ss c).

(** [Curve.set_start_and_end_on], [set_start_on], [set_end_on], lines 252-266. *)
Definition set_start_and_end_on (c : curve) (s0 s1 : R) : curve :=
  update_lengths (with_domain c (s2t c s0) (s2t c s1)).
(** curve.py 252-266. *)
Definition set_start_on (c : curve) (s0 : R) : curve :=
  update_lengths (with_domain c (s2t c s0) (c_t1 c)).
(** curve.py 252-266. *)
Definition set_end_on (c : curve) (s1 : R) : curve :=
  update_lengths (with_domain c (c_t0 c) (s2t c s1)).

(** [Curve.cut], lines 240-246 (both results are deep copies). *)
Definition c_cut (c : curve) (s : R) : curve * curve := (set_end_on c s, set_start_on c s).

(** [Curve.derivative], lines 206-238, for [n <= 1]. *)
Definition c_derivative (c : curve) (s : R) (direction : R) (delta : R) : vec :=
  if Req_EM_T direction 0 then
    smul (/ delta) (smul (/ 2) (vsub (c_eval c (s + delta)) (c_eval c (s - delta))))
  else if Rlt_dec 0 direction then
    smul (/ delta) (vsub (c_eval c (s + delta)) (c_eval c s))
  else smul (/ delta) (vsub (c_eval c s) (c_eval c (s - delta))).

(** Default sample count, line 61. *)
Definition NDIV : nat := 21.

(** [Curve.__add__] and [__sub__], lines 268-296. *)
Definition c_add (a b : curve) : curve :=
  new_curve (SGen (fun t => vadd (c_eval a t) (c_eval b t))) (c_act a && c_act b) 0 1 NDIV.
(** curve.py 283-296. *)
Definition c_sub (a b : curve) : curve :=
  new_curve (SGen (fun t => vsub (c_eval a t) (c_eval b t))) (c_act a && c_act b) 0 1 NDIV.
(** [Curve.__mul__] (and [__rmul__]), lines 298-320, for int/float [k]. *)
Definition c_mul (a : curve) (k : R) : curve :=
  new_curve (SGen (fun t => smul k (c_eval a t))) (c_act a) 0 1 NDIV.
(** [Curve.__truediv__], lines 322-336: note [t0=self.t_0, t1=self.t_1]. *)
Definition c_div (a : curve) (k : R) : curve :=
  new_curve (SGen (fun t => smul (/ k) (c_eval a t))) (c_act a) (c_t0 a) (c_t1 a) NDIV.

(** [Curve.is_closed], lines 338-341. *)
Definition c_is_closed (c : curve) : Prop := norm (vsub (c_eval c 0) (c_eval c 1)) < DELTA / 100.

(** ** LineCurve, lines 1072-1103 *)
Definition line_curve (p0 p1 : vec) (act : bool) : curve := new_curve (SLine p0 p1) act 0 1 NDIV.

(** [LineCurve.transform], lines 1100-1103. *)
Definition line_transform (f : vec -> vec) (p0 p1 : vec) (act : bool) : curve :=
  line_curve (f p0) (f p1) act.

(** ** ArcCurve, lines 1106-1315 *)
Definition arc_curve (r a : R) (center : vec) (yaw pitch roll : R) (act : bool) : curve :=
  new_curve (SArc r a center (euler_zyx yaw pitch roll)) act 0 1 NDIV.

(** scipy [Rotation.from_matrix(A).as_euler("zyx")] for a rotation [A]: the angles (a, b, c) with
    [A = Rx(c) Ry(b) Rz(a)]; in gimbal lock the third angle is zero. curve.py 1211-1212. *)
Definition as_euler_zyx (A : mat) : R * R * R :=
  let b := asin (m13 A) in
  if Req_EM_T (m11 A * m11 A + m12 A * m12 A) 0 then (arctan2 (m21 A) (m22 A), b, 0)
  else (arctan2 (- m12 A) (m11 A), b, arctan2 (- m23 A) (m33 A)).

(** curve.py 1214-1233, 1258-1306: the shared end of the constructors. *)
Definition arc_from_frame (r a : R) (center x y z : vec) (act : bool) : curve :=
  let '(yaw, pitch, roll) := as_euler_zyx (of_cols x y z) in
  arc_curve r a center yaw pitch roll act.

(** [ArcCurve.from_2_point_center], lines 1214-1233. *)
Definition from_2_point_center (p0 p1 center : vec) (revolutions : R) (act : bool) : curve :=
  let r := norm (vsub p0 center) in
  let x := normalize (vsub p0 center) in
  let z := normalize (cross (vsub p0 center) (vsub p1 center)) in
  let y := cross z x in
  arc_from_frame r (angle_between (vsub p0 center) (vsub p1 center) + revolutions * PI * 2)
    center x y z act.

(** [ArcCurve.from_2_point_curvature], lines 1235-1256; first the centre it computes. *)
Definition vec_eq_dec (a b : vec) : {a = b} + {a <> b}.
Proof.
  destruct (Req_EM_T (vx a) (vx b)) as [E1|E1];
  [destruct (Req_EM_T (vy a) (vy b)) as [E2|E2];
   [destruct (Req_EM_T (vz a) (vz b)) as [E3|E3]|]|].
  - left. apply vec_eq; assumption.
  - right. intros ->. apply E3; reflexivity.
  - right. intros ->. apply E2; reflexivity.
  - right. intros ->. apply E1; reflexivity.
Defined.

(** curve.py 1235-1256. *)
Definition curvature_center (p0 p1 : vec) (curvature : R) (axis : vec) : vec :=
  let r0 := / curvature in
  let dp := if vec_eq_dec (vsub p1 p0) ORIGIN then UP else normalize (vsub p1 p0) in
  let ax := normalize (vsub axis (smul (dot axis dp) dp)) in
  let d := norm (vsub p1 p0) in
  let r := if Rlt_dec (Rabs r0) (d / 2) then d / 2 * sign r0 else r0 in
  let h := sqrt (r * r - d / 2 * (d / 2)) * sign r in
  vsub (smul (/ 2) (vadd p0 p1)) (smul h (cross dp ax)).
(** curve.py 1235-1256. *)
Definition from_2_point_curvature (p0 p1 : vec) (curvature : R) (axis : vec) (revolutions : R)
  (act : bool) : curve :=
  from_2_point_center p0 p1 (curvature_center p0 p1 curvature axis) revolutions act.

(** [ArcCurve.from_point_center_angle], lines 1258-1276. *)
Definition from_point_center_angle (p0 center : vec) (angle : R) (axis : vec) (act : bool) : curve :=
  let r := norm (vsub p0 center) in
  let x := normalize (vsub p0 center) in
  let y := normalize (cross axis x) in
  let z := cross x y in
  arc_from_frame r angle center x y z act.

(** [ArcCurve.from_radius_center_angle], lines 1278-1306: the yaw of the frame is dropped. *)
Definition from_radius_center_angle (radius : R) (center : vec) (a0 a1 : R) (axis : vec)
  (act : bool) : curve :=
  let x0 := cross UP axis in
  let x := if Req_EM_T (norm x0) 0 then OUT else normalize x0 in
  let y := cross axis x in
  let '(_, pitch, roll) := as_euler_zyx (of_cols x y axis) in
  arc_curve radius (a1 - a0) center a0 pitch roll act.

(** [ArcCurve.axis], lines 1183-1185. *)
Definition arc_axis (rot : mat) : vec := mapp rot OUT.

(** [ArcCurve.transform], lines 1308-1315; [p] is [self(0)]. *)
Definition arc_transform (f : vec -> vec) (p : vec) (angle : R) (center : vec) (rot : mat)
  (act : bool) : curve :=
  let p0 := f p in
  let center0 := f center in
  let center2 := f (vadd center (arc_axis rot)) in
  from_point_center_angle p0 center0 angle (normalize (vsub center2 center0)) act.

(** [c.transform(f)] dispatched on the class, for lines and arcs. curve.py 1100-1103, 1308-1315. *)
Definition c_transform (f : vec -> vec) (c : curve) : option curve :=
  match c_shape c with
  | SLine p0 p1 => Some (line_transform f p0 p1 (c_act c))
  | SArc _ a ctr rot => Some (arc_transform f (c_eval c 0) a ctr rot (c_act c))
  | _ => None
  end.

(** ** TransformedCurve and subclasses, lines 1463-1527 *)
Definition transformed_curve (f : vec -> vec) (c : curve) : curve :=
  new_curve (SGen (fun t => f (c_eval c t))) (c_act c) 0 1 NDIV.

(** [mirror_func], lines 1498-1508. *)
Definition mirror_func (n center p : vec) : vec :=
  let p2 := vsub p center in
  vadd (vsub p2 (smul (2 * dot p2 n) n)) center.
(** curve.py 1491-1510. *)
Definition mirrored_curve (c : curve) (plane_normal center : vec) : curve :=
  transformed_curve (mirror_func (normalize plane_normal) center) c.

(** [rotate_func], lines 1521-1525. *)
Definition rotate_func (axis : vec) (angle : R) (center p : vec) : vec :=
  vadd (mapp (from_rotvec (smul angle axis)) (vsub p center)) center.
(** curve.py 1513-1527. *)
Definition rotated_curve (c : curve) (angle : R) (axis center : vec) : curve :=
  transformed_curve (rotate_func (normalize axis) angle center) c.

(** ** NurbCurve, lines 1530-1555 *)
Definition nurb_curve (pts : list vec) (ws : list R) (act : bool) : curve :=
  new_curve (SNurb pts ws) act 0 1 NDIV.
