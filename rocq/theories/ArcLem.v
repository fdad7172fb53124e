(** Frames, Euler angles and evaluation of arcs. *)
From Coq Require Import Nsatz Reals Lra Lia Psatz List.
From Verif Require Import Num Vec Coords CoordsProps Bezier Interp Curve CurveLem.
Import ListNotations.
Open Scope R_scope.

Lemma rotation_euler a b c : rotation (euler_zyx a b c).
Proof.
  apply rotation_mmul; [apply rotation_rotx|].
  apply rotation_mmul; [apply rotation_roty|apply rotation_rotz].
Qed.

(** [from_euler] inverts [as_euler] on rotations. *)
Lemma euler_as_euler A : rotation A ->
  let '(a, b, c) := as_euler_zyx A in euler_zyx a b c = A.
Proof.
  intros HR. destruct (rotation_cofactor A HR) as (K1&K2&K3&K4&K5&K6&K7&K8&K9).
  pose proof (orthogonal_r A (proj1 HR)) as HO. destruct HR as [HC HD].
  unfold orthogonal in HC. unfold as_euler_zyx.
  destruct A as [a11 a12 a13 a21 a22 a23 a31 a32 a33]. vec_simpl.
  injection HO; injection HC; intros. clear HO HC.
  clear HD K1 K2 K3 K4 K5 H0 H1 H2 H3 H4 H5 H6 H7 H8 H9 H10 H11 H13.
  assert (B : -1 <= a13 <= 1) by nra.
  set (b := asin a13).
  assert (Sb : sin b = a13) by (apply sin_asin; lra).
  assert (Cb : 0 <= cos b).
  { apply cos_ge_0; unfold b; pose proof (asin_bound a13); lra. }
  pose proof (sc1 b) as SC. rewrite Sb in SC.
  assert (CC : cos b * cos b = a11 * a11 + a12 * a12) by (unfold Rsqr in SC; lra).
  assert (CC2 : cos b * cos b = a33 * a33 + a23 * a23) by (unfold Rsqr in SC; lra).
  destruct (Req_EM_T (a11 * a11 + a12 * a12) 0) as [E|E].
  - assert (a11 = 0 /\ a12 = 0) as [-> ->] by (clear - E; nra).
    assert (cos b = 0) as Cb0 by (clear - CC; nra).
    rewrite Cb0 in CC2. assert (a23 = 0 /\ a33 = 0) as [-> ->] by (clear - CC2; nra).
    destruct (arctan2_cos_sin a21 a22) as [C S].
    assert (a22 * a22 + a21 * a21 = 1) as N by lra.
    rewrite N, sqrt_1 in C, S.
    rewrite Cb0, Sb, cos_0, sin_0. rewrite Rmult_1_l in C, S. rewrite C, S.
    apply mat_eq; vec_simpl; lra.
  - assert (P : 0 < cos b) by (rewrite <- CC in E; clear - E Cb; nra).
    destruct (arctan2_cos_sin (- a12) a11) as [C1 S1].
    destruct (arctan2_cos_sin (- a23) a33) as [C2 S2].
    replace (a11 * a11 + - a12 * - a12) with (cos b * cos b) in C1, S1 by (rewrite CC; ring).
    replace (a33 * a33 + - a23 * - a23) with (cos b * cos b) in C2, S2 by (rewrite CC2; ring).
    rewrite sqrt_square in C1, S1, C2, S2 by lra.
    set (ca := cos (arctan2 (- a12) a11)) in *. set (sa := sin (arctan2 (- a12) a11)) in *.
    set (cc := cos (arctan2 (- a23) a33)) in *. set (sc := sin (arctan2 (- a23) a33)) in *.
    rewrite Sb. set (cb := cos b) in *. clearbody ca sa cc sc cb.
    assert (U : forall u v, cb * cb * u = cb * cb * v -> u = v).
    { intros u v Huv. apply Rmult_eq_reg_l with (cb * cb); [exact Huv|clear - P; nra]. }
    assert (R12 : a13 * a23 = - (a11 * a21 + a12 * a22)) by lra.
    assert (R13 : a13 * a33 = - (a11 * a31 + a12 * a32)) by lra.
    assert (T21 : cc * sa + sc * a13 * ca = a21).
    { apply U. transitivity ((cb * cc) * (cb * sa) + (cb * sc) * (cb * ca) * a13); [ring|].
      rewrite C2, S1, S2, C1, CC. transitivity (- a12 * a33 - a11 * (a13 * a23)); [ring|].
      rewrite R12, K9. ring. }
    assert (T22 : cc * ca - sc * a13 * sa = a22).
    { apply U. transitivity ((cb * cc) * (cb * ca) - (cb * sc) * (cb * sa) * a13); [ring|].
      rewrite C2, S1, S2, C1, CC. transitivity (a11 * a33 - a12 * (a13 * a23)); [ring|].
      rewrite R12, K9. ring. }
    assert (T31 : sc * sa - cc * a13 * ca = a31).
    { apply U. transitivity ((cb * sc) * (cb * sa) - (cb * cc) * (cb * ca) * a13); [ring|].
      rewrite C2, S1, S2, C1, CC. transitivity (a12 * a23 - a11 * (a13 * a33)); [ring|].
      rewrite R13, K6. ring. }
    assert (T32 : sc * ca + cc * a13 * sa = a32).
    { apply U. transitivity ((cb * sc) * (cb * ca) + (cb * cc) * (cb * sa) * a13); [ring|].
      rewrite C2, S1, S2, C1, CC. transitivity (- a11 * a23 - a12 * (a13 * a33)); [ring|].
      rewrite R13, K6. ring. }
    apply mat_eq; vec_simpl; lra.
Qed.

(** Right-handed orthonormal frames. *)
Lemma frame_rotation x y : dot x x = 1 -> dot y y = 1 -> dot x y = 0 ->
  rotation (of_cols x y (cross x y)).
Proof.
  intros. destruct x as [x1 x2 x3], y as [y1 y2 y3]. vec_simpl.
  split; [unfold orthogonal; apply mat_eq|]; vec_simpl; nsatz.
Qed.
Lemma frame_rotation2 x z : dot x x = 1 -> dot z z = 1 -> dot x z = 0 ->
  rotation (of_cols x (cross z x) z).
Proof.
  intros. destruct x as [x1 x2 x3], z as [y1 y2 y3]. vec_simpl.
  split; [unfold orthogonal; apply mat_eq|]; vec_simpl; nsatz.
Qed.

Lemma normalize_dot v : v <> ORIGIN -> dot (normalize v) (normalize v) = 1.
Proof. intros H. rewrite <- norm_sqr. destruct (C14_normalize v H) as [-> _]. ring. Qed.

Lemma normalize_eq v : v <> ORIGIN -> v = smul (norm v) (normalize v).
Proof. intros H. symmetry. apply C14_normalize, H. Qed.

Lemma normalize_unit v : dot v v = 1 -> normalize v = v.
Proof.
  intros H. unfold normalize. rewrite (norm_eq v 1) by lra. rewrite Rinv_1. apply smul_1.
Qed.

Lemma normalize_scale k v : 0 < k -> v <> ORIGIN -> normalize (smul k v) = normalize v.
Proof.
  intros Hk Hv. unfold normalize. rewrite norm_smul, Rabs_right, smul_smul by lra. f_equal.
  pose proof (norm_pos v Hv). field. lra.
Qed.

Lemma normalize_rot A v : orthogonal A -> normalize (mapp A v) = mapp A (normalize v).
Proof.
  intros H. unfold normalize. rewrite orthogonal_norm by exact H. symmetry. apply mapp_smul.
Qed.

Lemma s2t_default c s : c_ss c = [-1000000; 1000000] -> c_ts c = [-1000000; 1000000] -> s2t c s = s.
Proof.
  intros E1 E2. unfold s2t. rewrite E1, E2. cbn [length Nat.sub nth].
  destruct (Rlt_dec s 0); [unfold interpolate; field|].
  destruct (Rlt_dec 1 s); [unfold interpolate; field|].
  unfold np_interp. cbn [hd last interp_scan].
  repeat (destruct (Rlt_dec _ _); try lra).
  destruct (Req_EM_T s (-1000000)); [lra|field].
Qed.

Lemma arc_new_s2t r a ce m act s : s2t (new_curve (SArc r a ce m) act 0 1 NDIV) s = s.
Proof.
  unfold new_curve. destruct act; [|apply s2t_default; reflexivity].
  rewrite s2t_two_points by reflexivity. simpl. ring.
Qed.

Lemma arc_new_eval r a ce m act s :
  c_eval (new_curve (SArc r a ce m) act 0 1 NDIV) s =
  vadd (smul r (vadd (smul (cos (a * s)) (col1 m)) (smul (sin (a * s)) (col2 m)))) ce.
Proof.
  unfold c_eval. rewrite arc_new_s2t.
  replace (c_fun (new_curve (SArc r a ce m) act 0 1 NDIV)) with (shape_fun (SArc r a ce m))
    by (unfold new_curve; destruct act; reflexivity).
  cbn [shape_fun]. f_equal. vec_ring.
Qed.

Lemma arc_frame_shape r a ce x y z act : rotation (of_cols x y z) ->
  arc_from_frame r a ce x y z act = new_curve (SArc r a ce (of_cols x y z)) act 0 1 NDIV.
Proof.
  intros HR. pose proof (euler_as_euler _ HR) as E. unfold arc_from_frame, arc_curve.
  destruct (as_euler_zyx (of_cols x y z)) as [[yaw pitch] roll]. rewrite E. reflexivity.
Qed.

Lemma arc_frame_eval r a ce x y z act s : rotation (of_cols x y z) ->
  c_eval (arc_from_frame r a ce x y z act) s =
  vadd (smul r (vadd (smul (cos (a * s)) x) (smul (sin (a * s)) y))) ce.
Proof.
  intros HR. rewrite arc_frame_shape, arc_new_eval by exact HR.
  destruct x, y. reflexivity.
Qed.

(** Distance of two points of an arc. *)
Lemma chord_frame r u v x y : 0 <= r -> dot x x = 1 -> dot y y = 1 -> dot x y = 0 ->
  norm (vsub (smul r (vadd (smul (cos u) x) (smul (sin u) y)))
             (smul r (vadd (smul (cos v) x) (smul (sin v) y)))) =
  2 * r * Rabs (sin ((u - v) / 2)).
Proof.
  intros Hr HX HY XY. apply norm_eq.
  { pose proof (Rabs_pos (sin ((u - v) / 2))). nra. }
  assert (SS : sin ((u - v) / 2) * sin ((u - v) / 2) = (1 - cos (u - v)) / 2).
  { pose proof (cos_2a_sin ((u - v) / 2)). replace (2 * ((u - v) / 2)) with (u - v) in H by field. lra. }
  assert (AA : Rabs (sin ((u - v) / 2)) * Rabs (sin ((u - v) / 2)) = (1 - cos (u - v)) / 2).
  { rewrite <- Rabs_mult, SS, Rabs_right; [reflexivity|]. pose proof (COS_bound (u - v)). lra. }
  replace (2 * r * Rabs (sin ((u - v) / 2)) * (2 * r * Rabs (sin ((u - v) / 2))))
    with (4 * r * r * (Rabs (sin ((u - v) / 2)) * Rabs (sin ((u - v) / 2)))) by ring.
  rewrite AA, cos_minus. pose proof (sc1 u). pose proof (sc1 v).
  set (cu := cos u) in *. set (su := sin u) in *. set (cv := cos v) in *. set (sv := sin v) in *.
  clearbody cu su cv sv. clear SS AA.
  transitivity (r * r * ((cu - cv) * (cu - cv) * dot x x + 2 * (cu - cv) * (su - sv) * dot x y
                         + (su - sv) * (su - sv) * dot y y)).
  { clear. destruct x as [x1 x2 x3], y as [y1 y2 y3]. vec_simpl. ring. }
  rewrite HX, HY, XY.
  transitivity (r * r * ((su * su + cu * cu) + (sv * sv + cv * cv) - 2 * (cu * cv + su * sv))); [ring|].
  rewrite H, H0. field.
Qed.

Lemma Rabs_sin_le x : Rabs (sin x) <= Rabs x.
Proof.
  destruct (Rtotal_order x 0) as [H|[->|H]].
  - rewrite <- (Rabs_Ropp x), (Rabs_right (- x)) by lra.
    rewrite <- Rabs_Ropp, <- sin_neg.
    assert (P : 0 < - x) by lra. revert P. generalize (- x). intros y P.
    pose proof (sin_lt_x y P).
    destruct (Rle_dec 0 (sin y)); [rewrite Rabs_right; lra|].
    rewrite Rabs_left by lra. pose proof (SIN_bound y).
    destruct (Rle_dec y PI); [pose proof (sin_ge_0 y ltac:(lra) ltac:(lra)); lra|].
    pose proof PI2_1. lra.
  - rewrite sin_0. lra.
  - rewrite (Rabs_right x) by lra. pose proof (sin_lt_x x H).
    destruct (Rle_dec 0 (sin x)); [rewrite Rabs_right; lra|].
    rewrite Rabs_left by lra. pose proof (SIN_bound x).
    destruct (Rle_dec x PI); [pose proof (sin_ge_0 x ltac:(lra) ltac:(lra)); lra|].
    pose proof PI2_1. lra.
Qed.
