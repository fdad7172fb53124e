(** Properties C11-C14: coordinates and angles. *)
From Coq Require Import Reals Lra Psatz Nsatz.
From Verif Require Import Num Vec Transform TransformProps Params ParamsProps Coords.
Open Scope R_scope.

(** ** C11 *)
Theorem C11_cylindrical_round_trip v c :
  cylindrical_to_xyz (xyz_to_cylindrical v c) c = v.
Proof.
  unfold cylindrical_to_xyz, xyz_to_cylindrical. cbn [vx vy vz].
  destruct (arctan2_cos_sin (vy (vsub v c)) (vx (vsub v c))) as [C S].
  rewrite C, S. vec_ring.
Qed.

Lemma cyl_norm r a : 0 <= r -> sqrt (r * cos a * (r * cos a) + r * sin a * (r * sin a)) = r.
Proof.
  intros. replace (r * cos a * (r * cos a) + r * sin a * (r * sin a))
    with (r * r * (sin a * sin a + cos a * cos a)) by ring.
  rewrite sc1, Rmult_1_r. apply sqrt_square. assumption.
Qed.

Theorem C11_cylindrical_round_trip_inv r phi z c : 0 < r -> - PI < phi <= PI ->
  xyz_to_cylindrical (cylindrical_to_xyz (V r phi z) c) c = V r phi z.
Proof.
  intros Hr Hp. unfold cylindrical_to_xyz, xyz_to_cylindrical. cbn [vx vy vz].
  replace (vsub (V (r * cos phi + vx c) (r * sin phi + vy c) (z + vz c)) c)
    with (V (r * cos phi) (r * sin phi) z) by (destruct c; vec_ring).
  cbn [vx vy vz]. rewrite cyl_norm by lra. rewrite arctan2_polar by assumption. reflexivity.
Qed.
Example C11_cylindrical_round_trip_inv_example :
  xyz_to_cylindrical (cylindrical_to_xyz (V 2 1 5) (V 1 2 3)) (V 1 2 3) = V 2 1 5.
Proof. pose proof PI2_1. apply C11_cylindrical_round_trip_inv; lra. Qed.

(** The reported radius is the distance to the axis through the centre. *)
Theorem C11_cylindrical_radius v c :
  vx (xyz_to_cylindrical v c) = norm (V (vx v - vx c) (vy v - vy c) 0) /\
  vz (xyz_to_cylindrical v c) = vz v - vz c /\
  - PI < vy (xyz_to_cylindrical v c) <= PI.
Proof.
  unfold xyz_to_cylindrical. cbn [vx vy vz]. repeat split; try apply arctan2_bound.
  unfold norm, dot. cbn. f_equal. ring.
Qed.

(** ** C12 *)
Lemma sin_acos_mul z r : 0 < r -> z * z <= r * r ->
  r * sin (acos (z / r)) = sqrt (r * r - z * z).
Proof.
  intros Hr H.
  assert (B : -1 <= z / r <= 1).
  { split.
    - apply Rmult_le_reg_r with r; [lra|]. unfold Rdiv. rewrite Rmult_assoc, Rinv_l by lra. nra.
    - apply Rmult_le_reg_r with r; [lra|]. unfold Rdiv. rewrite Rmult_assoc, Rinv_l by lra. nra. }
  rewrite sin_acos by exact B. rewrite <- (sqrt_square r) at 1 by lra.
  rewrite <- sqrt_mult by (try nra; unfold Rsqr; nra). f_equal. unfold Rsqr. field. lra.
Qed.

Lemma cos_acos_mul z r : 0 < r -> z * z <= r * r -> r * cos (acos (z / r)) = z.
Proof.
  intros Hr H.
  rewrite cos_acos; [field; lra|]. split.
  - apply Rmult_le_reg_r with r; [lra|]. unfold Rdiv. rewrite Rmult_assoc, Rinv_l by lra. nra.
  - apply Rmult_le_reg_r with r; [lra|]. unfold Rdiv. rewrite Rmult_assoc, Rinv_l by lra. nra.
Qed.

Theorem C12_spherical_round_trip v c : v <> c ->
  spherical_to_xyz (xyz_to_spherical v c) c = v.
Proof.
  intros N. unfold spherical_to_xyz, xyz_to_spherical. cbn [vx vy vz].
  assert (P : 0 < norm (vsub v c)).
  { apply norm_pos. intros H. apply N. rewrite <- (vadd_vsub v c), H, vadd_0_l. reflexivity. }
  pose proof (norm_sqr (vsub v c)) as Q.
  set (d := vsub v c) in *. unfold dot in Q.
  assert (Z : vz d * vz d <= norm d * norm d) by nra.
  rewrite sin_acos_mul, cos_acos_mul by assumption.
  replace (norm d * norm d - vz d * vz d) with (vx d * vx d + vy d * vy d) by lra.
  destruct (arctan2_cos_sin (vy d) (vx d)) as [C S]. rewrite C, S.
  unfold d. destruct v, c. vec_ring.
Qed.

Theorem C12_spherical_round_trip_inv r phi th c : 0 < r -> - PI < phi <= PI -> 0 < th < PI ->
  xyz_to_spherical (spherical_to_xyz (V r phi th) c) c = V r phi th.
Proof.
  intros Hr Hp Ht. unfold spherical_to_xyz, xyz_to_spherical. cbn [vx vy vz].
  replace (vsub (V (r * sin th * cos phi + vx c) (r * sin th * sin phi + vy c) (r * cos th + vz c)) c)
    with (V (r * sin th * cos phi) (r * sin th * sin phi) (r * cos th)) by (destruct c; vec_ring).
  cbn [vx vy vz].
  assert (S : 0 < sin th) by (apply sin_gt_0; lra).
  rewrite arctan2_polar by (try assumption; nra).
  replace (norm (V (r * sin th * cos phi) (r * sin th * sin phi) (r * cos th))) with r.
  2:{ symmetry. apply norm_eq; [lra|]. unfold dot. cbn.
      pose proof (sc1 phi). pose proof (sc1 th). nsatz. }
  replace (r * cos th / r) with (cos th) by (field; lra).
  rewrite acos_cos by lra. reflexivity.
Qed.
Example C12_spherical_round_trip_inv_example :
  xyz_to_spherical (spherical_to_xyz (V 2 1 1) (V 1 2 3)) (V 1 2 3) = V 2 1 1.
Proof. pose proof PI2_1. apply C12_spherical_round_trip_inv; lra. Qed.

Theorem C12_spherical_radius v c :
  vx (xyz_to_spherical v c) = norm (vsub v c).
Proof. reflexivity. Qed.

(** The polar angle is measured from the north pole (+z). *)
Theorem C12_spherical_polar_angle v c : v <> c ->
  norm (vsub v c) * cos (vz (xyz_to_spherical v c)) = vz v - vz c /\
  0 <= vz (xyz_to_spherical v c) <= PI.
Proof.
  intros N. unfold xyz_to_spherical. cbn [vx vy vz].
  assert (P : 0 < norm (vsub v c)).
  { apply norm_pos. intros H. apply N. rewrite <- (vadd_vsub v c), H, vadd_0_l. reflexivity. }
  split; [|apply acos_bound].
  rewrite cos_acos_mul; [reflexivity|exact P|].
  pose proof (norm_sqr (vsub v c)) as Q. unfold dot in Q. nra.
Qed.
Example C12_spherical_polar_angle_example :
  norm (vsub (V 1 2 3) (V 0 0 5)) * cos (vz (xyz_to_spherical (V 1 2 3) (V 0 0 5))) = 3 - 5
  /\ 0 <= vz (xyz_to_spherical (V 1 2 3) (V 0 0 5)) <= PI.
Proof. apply (C12_spherical_polar_angle (V 1 2 3) (V 0 0 5)). intros H. injection H. lra. Qed.

Example C12_example : spherical_to_xyz (xyz_to_spherical (V 1 2 3) (V 0 0 5)) (V 0 0 5) = V 1 2 3.
Proof. apply C12_spherical_round_trip. intros H. injection H. lra. Qed.

(** ** C13 *)
Lemma sign_sqr' ca : ca <> 0 -> sign ca * sign ca = 1.
Proof. apply sign_sqr. Qed.

Lemma zcomp_zcomp ca p : ca <> 0 -> zcomp ca (zcomp ca p) = p.
Proof.
  intros H. unfold zcomp. cbn [vx vy vz]. destruct p as [x y z]. cbn [vx vy vz].
  apply vec_eq; cbn; try ring. rewrite Rmult_assoc, sign_sqr by exact H. ring.
Qed.

Lemma polar_R_pos ca br : br <> 0 -> - PI < ca < PI -> ca <> 0 -> 0 < c_R (polar_cone ca br).
Proof.
  intros Hb Hc H0. destruct (trig_nonzero (ca / 2)) as (S & _ & _); [lra|lra|].
  unfold c_R, polar_cone, gamma. cbn [base_radius cone_angle c_trf t_default t_scale].
  apply Rabs_pos_lt. unfold Rdiv. repeat apply Rmult_integral_contrapositive_currified; try lra.
  apply Rinv_neq_0_compat. exact S.
Qed.

(** Polar then inverse polar is the identity away from the apex. *)
Theorem C13_polar_round_trip ca br p :
  - PI < ca < PI -> br <> 0 -> (ca <> 0 -> p <> c_center (polar_cone ca br)) ->
  inverse_polar_transform ca br (polar_transform ca br p) = p.
Proof.
  intros Hc Hb HP. unfold inverse_polar_transform, polar_transform.
  destruct (Req_EM_T ca 0) as [E|E].
  - apply C11_cylindrical_round_trip.
  - specialize (HP E). pose proof (polar_R_pos ca br Hb Hc E) as RP.
    set (q := xyz_to_spherical _ _). cbn [vx vy vz].
    replace (V (c_R (polar_cone ca br) - (c_R (polar_cone ca br) - vx q)) (vy q)
       (PI / 2 - (PI / 2 - vz q) * c_R (polar_cone ca br) / c_R (polar_cone ca br))) with q.
    2:{ apply vec_eq; cbn; field. lra. }
    unfold q. rewrite C12_spherical_round_trip.
    + apply zcomp_zcomp, E.
    + intros H. apply HP. rewrite <- (zcomp_zcomp ca p E), H. apply zcomp_zcomp, E.
Qed.

(** Inverse polar then polar is the identity on the coordinate range. *)
Theorem C13_polar_round_trip_inv ca br out phi h :
  - PI < ca < PI -> br <> 0 -> ca <> 0 -> - PI < phi <= PI ->
  h < c_R (polar_cone ca br) ->
  - (PI / 2) * c_R (polar_cone ca br) < out < PI / 2 * c_R (polar_cone ca br) ->
  polar_transform ca br (inverse_polar_transform ca br (V out phi h)) = V out phi h.
Proof.
  intros Hc Hb E Hp Hh Ho. unfold inverse_polar_transform, polar_transform.
  destruct (Req_EM_T ca 0) as [E'|_]; [contradiction|].
  pose proof (polar_R_pos ca br Hb Hc E) as RP. set (RR := c_R (polar_cone ca br)) in *.
  cbn [vx vy vz]. rewrite zcomp_zcomp by exact E.
  assert (- (PI / 2) < out / RR < PI / 2).
  { split; apply Rmult_lt_reg_r with RR; try lra; unfold Rdiv; rewrite Rmult_assoc, Rinv_l by lra; lra. }
  rewrite C12_spherical_round_trip_inv by (try assumption; lra).
  cbn [vx vy vz]. apply vec_eq; cbn; field. lra.
Qed.
Example C13_polar_round_trip_inv_example :
  let c := polar_cone (PI / 2) 10 in
  polar_transform (PI / 2) 10 (inverse_polar_transform (PI / 2) 10 (V (- (PI / 4) * c_R c) 1 0)) = V (- (PI / 4) * c_R c) 1 0.
Proof.
  intros c. pose proof PI_RGT_0. pose proof PI2_1.
  assert (S : 0 < sin (PI / 4)) by (apply sin_gt_0; lra).
  assert (0 < c_R c).
  { unfold c, c_R, polar_cone, gamma. cbn [cone_angle base_radius c_trf t_scale t_default].
    replace (PI / 2 / 2) with (PI / 4) by field. apply Rabs_pos_lt.
    assert (0 < 10 / sin (PI / 4)) by (apply Rdiv_lt_0_compat; lra). lra. }
  apply C13_polar_round_trip_inv; try lra; fold c; [lra|].
  assert (0 < PI * c_R c) by (apply Rmult_lt_0_compat; lra). lra.
Qed.

(** Cylindrical case of the second round trip. *)
Theorem C13_polar_round_trip_inv_cyl br r phi z : 0 < r -> - PI < phi <= PI ->
  polar_transform 0 br (inverse_polar_transform 0 br (V r phi z)) = V r phi z.
Proof.
  intros. unfold polar_transform, inverse_polar_transform.
  destruct (Req_EM_T 0 0); [|contradiction]. apply C11_cylindrical_round_trip_inv; assumption.
Qed.
Example C13_polar_round_trip_inv_cyl_example :
  polar_transform 0 10 (inverse_polar_transform 0 10 (V 9 1 2)) = V 9 1 2.
Proof. pose proof PI2_1. apply C13_polar_round_trip_inv_cyl; lra. Qed.

(** Meaning of the conic coordinates: height 0 is the sphere through the base circle about
    the apex, and [out] is arc length measured along meridians from the apex' equator. *)
Theorem C13_polar_height ca br p : ca <> 0 ->
  vz (polar_transform ca br p) = c_R (polar_cone ca br) - norm (vsub p (c_center (polar_cone ca br))).
Proof.
  intros E. unfold polar_transform. destruct (Req_EM_T ca 0); [contradiction|]. cbn [vz].
  f_equal. unfold xyz_to_spherical. cbn [vx]. unfold norm. f_equal.
  unfold zcomp. set (c := c_center _). destruct p as [x y z], c as [a b d].
  vec_simpl.
  replace ((z * sign ca - d * sign ca) * (z * sign ca - d * sign ca))
    with ((z - d) * (z - d) * (sign ca * sign ca)) by ring.
  rewrite sign_sqr by exact E. ring.
Qed.
Example C13_polar_height_example :
  vz (polar_transform (PI / 2) 10 (V 10 1 0))
  = c_R (polar_cone (PI / 2) 10) - norm (vsub (V 10 1 0) (c_center (polar_cone (PI / 2) 10))).
Proof. pose proof PI_RGT_0. apply C13_polar_height. lra. Qed.

(** On the pitch (base) circle the angular coordinate is the polar angle, and the out
    coordinate does not depend on the angle: it is (|gamma| - pi/2) R. *)
Theorem C13_polar_base_circle ca br th :
  - PI < ca < PI -> ca <> 0 -> 0 < br -> - PI < th <= PI ->
  polar_transform ca br (V (br * cos th) (br * sin th) 0) =
  V ((Rabs (ca / 2) - PI / 2) * c_R (polar_cone ca br)) th 0.
Proof.
  intros Hc E Hb Ht. pose proof (polar_R_pos ca br (Rgt_not_eq _ _ Hb) Hc E) as RP.
  destruct (trig_nonzero (ca / 2)) as (S & C & K); [lra|lra|].
  assert (CP : 0 < cos (ca / 2)) by (apply cos_gt_0; lra).
  assert (SA : 0 < sin (Rabs (ca / 2))).
  { apply sin_gt_0; [apply Rabs_pos_lt; lra|]. apply Rabs_def1; lra. }
  assert (CA : cos (Rabs (ca / 2)) = cos (ca / 2)).
  { unfold Rabs. destruct (Rcase_abs (ca / 2)); [apply cos_neg|reflexivity]. }
  assert (Rr : c_R (polar_cone ca br) = br / sin (Rabs (ca / 2))).
  { unfold c_R, polar_cone, gamma. cbn [base_radius cone_angle c_trf t_default t_scale].
    rewrite Rmult_1_r. unfold Rabs at 2. destruct (Rcase_abs (ca / 2)).
    - assert (0 < sin (- (ca / 2))) by (apply sin_gt_0; lra). rewrite sin_neg in *.
      rewrite Rabs_left; [field; lra|].
      replace (br / sin (ca / 2)) with (- (br / - sin (ca / 2))) by (field; lra).
      apply Ropp_lt_gt_0_contravar. apply Rdiv_lt_0_compat; lra.
    - assert (0 < sin (ca / 2)) by (apply sin_gt_0; lra).
      rewrite Rabs_right; [reflexivity|]. apply Rle_ge, Rlt_le, Rdiv_lt_0_compat; lra. }
  assert (Cc : zcomp ca (c_center (polar_cone ca br)) = V 0 0 (c_R (polar_cone ca br) * cos (ca / 2))).
  { unfold c_center, polar_cone, gamma, zcomp. cbn [base_radius cone_angle c_trf].
    rewrite apply_transform_eq. unfold t_default. cbn [t_orient t_scale t_center].
    fold t_default. fold (polar_cone ca br). rewrite Rr, mapp_I.
    vec_simpl. apply vec_eq; vec_simpl; try ring. unfold tan.
    unfold sign, Rabs. destruct (Rcase_abs (ca / 2)).
    - destruct (Rlt_dec ca 0); [|lra]. rewrite sin_neg. field. split; assumption.
    - destruct (Rlt_dec ca 0); [lra|]. destruct (Rlt_dec 0 ca); [|lra]. field. split; assumption. }
  unfold polar_transform. destruct (Req_EM_T ca 0); [contradiction|].
  rewrite Cc. set (RR := c_R (polar_cone ca br)) in *.
  assert (br = RR * sin (Rabs (ca / 2))) by (rewrite Rr; field; lra).
  assert (Eq : zcomp ca (V (br * cos th) (br * sin th) 0) =
    spherical_to_xyz (V RR th (PI - Rabs (ca / 2))) (V 0 0 (RR * cos (ca / 2)))).
  { unfold zcomp, spherical_to_xyz. cbn [vx vy vz].
    rewrite sin_PI_x, Rtrigo_facts.cos_pi_minus, CA. rewrite H. apply vec_eq; cbn; ring. }
  rewrite Eq, C12_spherical_round_trip_inv; cbn [vx vy vz].
  - apply vec_eq; cbn; field.
  - exact RP.
  - exact Ht.
  - pose proof (Rabs_pos_lt (ca / 2)). assert (Rabs (ca / 2) < PI / 2) by (apply Rabs_def1; lra).
    assert (0 < Rabs (ca / 2)) by (apply H0; lra). lra.
Qed.
Example C13_polar_base_circle_example :
  polar_transform (PI / 2) 10 (V (10 * cos 1) (10 * sin 1) 0)
  = V ((Rabs (PI / 2 / 2) - PI / 2) * c_R (polar_cone (PI / 2) 10)) 1 0.
Proof. pose proof PI2_1. apply C13_polar_base_circle; lra. Qed.

Example C13_example :
  inverse_polar_transform (PI / 2) 10 (polar_transform (PI / 2) 10 (V 10 1 0)) = V 10 1 0.
Proof.
  pose proof PI_RGT_0. apply C13_polar_round_trip; [lra|lra|].
  intros _ Hx. apply (f_equal vy) in Hx. revert Hx. unfold c_center. rewrite apply_transform_eq.
  cbn. intros. lra.
Qed.

(** ** C14 *)
Lemma cross_dot_norm a b :
  sqrt (dot a b * dot a b + norm (cross a b) * norm (cross a b)) = norm a * norm b.
Proof.
  rewrite norm_sqr, lagrange.
  replace (dot a b * dot a b + (dot a a * dot b b - dot a b * dot a b)) with (dot a a * dot b b) by ring.
  unfold norm. apply sqrt_mult; apply dot_nonneg.
Qed.

Theorem C14_angle_cos_sin a b :
  norm a * norm b * cos (angle_between a b) = dot a b /\
  norm a * norm b * sin (angle_between a b) = norm (cross a b).
Proof.
  unfold angle_between.
  destruct (arctan2_cos_sin (norm (cross a b)) (dot a b)) as [C S].
  rewrite cross_dot_norm in C, S. split; assumption.
Qed.

Theorem C14_angle_range a b : 0 <= angle_between a b <= PI.
Proof.
  unfold angle_between. split; [apply arctan2_nonneg, norm_nonneg|apply arctan2_bound].
Qed.

Theorem C14_angle_symmetric a b : angle_between a b = angle_between b a.
Proof.
  unfold angle_between. rewrite (dot_comm a b).
  replace (norm (cross a b)) with (norm (cross b a)); [reflexivity|].
  unfold norm. apply (f_equal sqrt). vec_ring.
Qed.

Theorem C14_angle_scale_invariant a b k l : 0 < k -> 0 < l ->
  angle_between (smul k a) (smul l b) = angle_between a b.
Proof.
  intros Hk Hl. unfold angle_between.
  replace (cross (smul k a) (smul l b)) with (smul (k * l) (cross a b)) by vec_ring.
  rewrite norm_smul, Rabs_right by nra.
  replace (dot (smul k a) (smul l b)) with (k * l * dot a b) by vec_ring.
  apply arctan2_scale. nra.
Qed.
Example C14_angle_scale_invariant_example :
  angle_between (smul 2 (V 1 2 3)) (smul 5 (V 4 0 1)) = angle_between (V 1 2 3) (V 4 0 1).
Proof. apply C14_angle_scale_invariant; lra. Qed.

Theorem C14_angle_rotation_invariant A a b : rotation A ->
  angle_between (mapp A a) (mapp A b) = angle_between a b.
Proof.
  intros H. unfold angle_between. rewrite <- rotation_cross by exact H.
  rewrite orthogonal_norm, orthogonal_dot by apply H. reflexivity.
Qed.
Example C14_angle_rotation_invariant_example :
  angle_between (mapp (rotx 1) (V 1 2 3)) (mapp (rotx 1) (V 4 0 1)) = angle_between (V 1 2 3) (V 4 0 1).
Proof. apply C14_angle_rotation_invariant. apply rotation_rotx. Qed.

Lemma atan2_0_pos x : 0 < x -> arctan2 0 x = 0.
Proof.
  intros. unfold arctan2. destruct (Rlt_dec 0 x); [|contradiction].
  unfold Rdiv. rewrite Rmult_0_l. apply atan_0.
Qed.

Theorem C14_angle_self a : a <> ORIGIN -> angle_between a a = 0 /\ angle_between a (vopp a) = PI.
Proof.
  intros H. pose proof (norm_pos a H). pose proof (norm_sqr a). unfold angle_between.
  replace (cross a a) with ORIGIN by vec_ring. replace (cross a (vopp a)) with ORIGIN by vec_ring.
  rewrite norm_ORIGIN. split.
  - apply atan2_0_pos. nra.
  - replace (dot a (vopp a)) with (- dot a a) by vec_ring.
    replace 0 with (dot a a * sin PI) by (rewrite sin_PI; ring).
    replace (- dot a a) with (dot a a * cos PI) by (rewrite cos_PI; ring).
    apply arctan2_polar; [nra|]. pose proof PI_RGT_0. lra.
Qed.
Example C14_angle_self_example :
  angle_between (V 1 2 3) (V 1 2 3) = 0 /\ angle_between (V 1 2 3) (vopp (V 1 2 3)) = PI.
Proof. apply C14_angle_self. intros H. injection H. lra. Qed.

Theorem C14_normalize v : v <> ORIGIN ->
  norm (normalize v) = 1 /\ smul (norm v) (normalize v) = v.
Proof.
  intros H. pose proof (norm_pos v H). unfold normalize. split.
  - rewrite norm_smul, Rabs_right.
    + field. lra.
    + apply Rle_ge, Rlt_le, Rinv_0_lt_compat. assumption.
  - rewrite smul_smul, Rinv_r, smul_1 by lra. reflexivity.
Qed.
Example C14_normalize_example :
  norm (normalize (V 1 2 3)) = 1 /\ smul (norm (V 1 2 3)) (normalize (V 1 2 3)) = V 1 2 3.
Proof. apply C14_normalize. intros H. injection H. lra. Qed.

(** Projection lies in the plane and is idempotent (unit normal). *)
Theorem C14_projection v n : norm n = 1 ->
  dot (project_plane v n) n = 0 /\ project_plane (project_plane v n) n = project_plane v n /\
  (dot v n = 0 -> project_plane v n = v).
Proof.
  intros H. assert (N : dot n n = 1) by (rewrite <- norm_sqr, H; ring).
  unfold project_plane. repeat split.
  - rewrite dot_vsub_l, dot_smul_l, N. ring.
  - rewrite dot_vsub_l, dot_smul_l, N.
    replace (dot v n - dot v n * 1) with 0 by ring. rewrite smul_0. apply vsub_0_r.
  - intros E. rewrite E, smul_0. apply vsub_0_r.
Qed.
Example C14_projection_example :
  dot (project_plane (V 1 2 3) (V (3 / 5) (4 / 5) 0)) (V (3 / 5) (4 / 5) 0) = 0.
Proof. apply (C14_projection (V 1 2 3) (V (3 / 5) (4 / 5) 0)). apply norm_eq; [lra|]. vec_simpl. field. Qed.

(** The angle to a plane with unit normal: its sine is |v.n|/|v|, it is pi/2 on the normal. *)
Theorem C14_angle_to_plane v n : norm n = 1 -> v <> ORIGIN ->
  norm v * sin (angle_to_plane v n) = Rabs (dot v n) /\
  norm v * cos (angle_to_plane v n) = norm (project_plane v n) /\
  0 <= angle_to_plane v n <= PI / 2.
Proof.
  intros H HV. assert (N : dot n n = 1) by (rewrite <- norm_sqr, H; ring).
  unfold angle_to_plane. fold (project_plane v n).
  set (w := project_plane v n).
  assert (W : dot w v = dot w w) by (unfold w, project_plane; destruct v, n; vec_simpl; nsatz).
  assert (PY : dot v v = dot w w + dot v n * dot v n)
    by (unfold w, project_plane; destruct v, n; vec_simpl; nsatz).
  pose proof (norm_pos v HV) as VP. pose proof (norm_sqr v) as V2. pose proof (norm_sqr w) as W2.
  destruct (Req_EM_T (norm w) 0) as [Z|Z].
  - rewrite sin_PI2, cos_PI2. repeat split; try (pose proof PI_RGT_0; lra).
    rewrite Rmult_1_r. apply Rsqr_inj; [lra|apply Rabs_pos|].
    rewrite <- Rsqr_abs. unfold Rsqr. nra.
  - assert (WP : 0 < norm w) by (pose proof (norm_nonneg w); lra).
    destruct (C14_angle_cos_sin w v) as [C S].
    assert (Cc : norm v * cos (angle_between w v) = norm w).
    { apply Rmult_eq_reg_l with (norm w); [|lra]. rewrite <- Rmult_assoc, C, W, W2. reflexivity. }
    assert (CP : 0 < cos (angle_between w v)) by (apply Rmult_lt_reg_l with (norm v); lra).
    pose proof (C14_angle_range w v) as RG.
    repeat split; [|exact Cc|lra|].
    + pose proof (sc1 (angle_between w v)).
      assert (0 <= sin (angle_between w v)) by (apply sin_ge_0; lra).
      apply Rsqr_inj; [nra|apply Rabs_pos|]. rewrite <- Rsqr_abs. unfold Rsqr. nra.
    + destruct (Rle_dec (angle_between w v) (PI / 2)); [assumption|].
      exfalso. assert (cos (angle_between w v) < 0); [|lra].
      apply cos_lt_0; pose proof PI_RGT_0; lra.
Qed.
Example C14_angle_to_plane_example :
  norm (V 1 2 3) * sin (angle_to_plane (V 1 2 3) (V (3 / 5) (4 / 5) 0)) = Rabs (dot (V 1 2 3) (V (3 / 5) (4 / 5) 0)).
Proof.
  apply (C14_angle_to_plane (V 1 2 3) (V (3 / 5) (4 / 5) 0)).
  - apply norm_eq; [lra|]. vec_simpl. field.
  - intros H. injection H. lra.
Qed.

(** The z rotation turns the xy angle. *)
Theorem C14_rotate_vector_angle r th a : 0 < r -> - PI < th + a <= PI ->
  angle_xy (rotate_vector (V (r * cos th) (r * sin th) 0) a) = th + a.
Proof.
  intros Hr H. unfold angle_xy, rotate_vector. vec_simpl.
  replace (sin a * (r * cos th) + cos a * (r * sin th) + 0 * 0) with (r * sin (th + a))
    by (rewrite sin_plus; ring).
  replace (cos a * (r * cos th) + - sin a * (r * sin th) + 0 * 0) with (r * cos (th + a))
    by (rewrite cos_plus; ring).
  apply arctan2_polar; assumption.
Qed.
Example C14_rotate_vector_angle_example :
  angle_xy (rotate_vector (V (2 * cos 1) (2 * sin 1) 0) (-2)) = 1 + -2.
Proof. pose proof PI2_1. apply C14_rotate_vector_angle; lra. Qed.

Example C14_example : angle_between (V 2 0 0) (V 0 3 0) = PI / 2.
Proof.
  unfold angle_between. replace (dot (V 2 0 0) (V 0 3 0)) with 0 by (vec_simpl; ring).
  replace (norm (cross (V 2 0 0) (V 0 3 0))) with 6.
  - unfold arctan2. destruct (Rlt_dec 0 0); [lra|]. destruct (Rlt_dec 0 0); [lra|].
    destruct (Rlt_dec 0 6); lra.
  - symmetry. apply norm_eq; [lra|]. vec_simpl. ring.
Qed.
