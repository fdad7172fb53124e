(** Property C93 for bevel gears: the undercut curve is the path of the corner of the crown rack.
    Property C96: the ends of the crown rack's flank. *)
From Coq Require Import Nsatz Reals Lra Psatz List Bool.
From Coquelicot Require Import Coquelicot.
From Verif Require Import Num Vec Transform Params Coords CoordsProps Gen GenProps GenDiffProps Interp Curve CurveLem CurveProps
  ArcLem ArcProps Chain GearLem MeshDistProps Profile Tooth Cycloid Teeth RackConjProps OctoidProps.
Import ListNotations.
Open Scope R_scope.

Definition below (p : vec) : vec := V (vx p) (vy p) (- vz p).

Lemma cone_undercut_fun rp cone P t : c_fun (cone_undercut rp cone P) t =
  let g := cone / 2 in let RR := Rabs (rp / sin g) in let w := mapp (roty (PI / 2)) (vsub P (smul RR RIGHT)) in
  involute_sphere t rp (1 / RR * sign g) 0 (V (vx w) (vy w) (vz w * sign g)) 0.
Proof. reflexivity. Qed.

(** C93: in the gear turned back by [t] the point [t] of the undercut curve is the corner [P] of the crown rack, turned in the
    ratio of the pitch radii; for a cone that opens upwards (negative angle) everything is mirrored in the pitch plane. *)
Theorem C93_cone_path rp g P t : 0 < rp -> 0 < g < PI / 2 ->
  turned (- t) (c_fun (cone_undercut rp (2 * g) P) t) = crown_to_gear rp g (mapp (rotz (- t * sin g)) P) /\
  turned (- t) (c_fun (cone_undercut rp (- (2 * g)) P) t) = below (crown_to_gear rp g (mapp (rotz (- t * sin g)) P)).
Proof.
  intros R0 G. assert (S : 0 < sin g) by (apply sin_gt_0; lra). destruct (slant_pos rp g R0 ltac:(lra)) as (L & PS).
  destruct (slant_half rp g R0 G) as (B & Z).
  assert (H : forall s, s = 1 \/ s = -1 ->
    turned (- t) (involute_sphere t rp (1 / slant rp g * s) 0
      (let w := mapp (roty (PI / 2)) (vsub P (smul (slant rp g) RIGHT)) in V (vx w) (vy w) (vz w * s)) 0) =
    V (vx (crown_to_gear rp g (mapp (rotz (- t * sin g)) P))) (vy (crown_to_gear rp g (mapp (rotz (- t * sin g)) P)))
      (s * vz (crown_to_gear rp g (mapp (rotz (- t * sin g)) P)))).
  { intros s SS. assert (IP : 0 < 1 / slant rp g) by (apply Rdiv_lt_0_compat; lra).
    unfold involute_sphere. destruct (Req_EM_T (1 / slant rp g * s) 0) as [E|_].
    { exfalso. destruct SS as [-> | ->]; lra. }
    assert (SG : sign (1 / slant rp g * s) = s) by (destruct SS as [-> | ->]; [apply sign_pos|apply sign_neg]; lra).
    assert (AB : 1 / Rabs (1 / slant rp g * s) = slant rp g).
    { rewrite Rabs_mult, (Rabs_right (1 / slant rp g)) by lra. assert (Rabs s = 1) as ->.
      { destruct SS as [-> | ->]; [apply Rabs_R1|rewrite Rabs_left; lra]. } field. lra. }
    cbv zeta. rewrite SG, AB, B, Z. replace (rp / slant rp g * t) with (t * sin g) by (unfold slant; field; lra).
    replace (- t * sin g) with (- (t * sin g)) by ring. rewrite Rplus_0_r.
    unfold crown_to_gear, pitch_apex, turned. generalize (slant rp g) (rp / tan g) (t * sin g). clear - SS. intros r h b.
    destruct P as [x y z].
    assert (EZ : forall v, mapp (rotz (- t)) (vadd (vadd (mapp (mmul (mmul (rotz t) (roty ((PI / 2 - g) * s))) (rotz (- b))) v) (smul s (smul h OUT))) (smul 0 OUT))
       = vadd (mapp (roty ((PI / 2 - g) * s)) (mapp (rotz (- b)) v)) (smul (s * h) OUT)).
    { intros v. rewrite !mapp_mmul. generalize (mapp (roty ((PI / 2 - g) * s)) (mapp (rotz (- b)) v)). intros u.
      transitivity (vadd (mapp (rotz (- t)) (mapp (rotz t) u)) (smul (s * h) OUT)); [vec_ring|].
      rewrite <- mapp_mmul, rotz_plus. replace (- t + t) with 0 by ring. rewrite rotz_0, mapp_I. reflexivity. }
    rewrite EZ.
    destruct SS as [-> | ->].
    - rewrite Rmult_1_r. replace (- (PI / 2) * 1) with (- (PI / 2)) by ring.
      apply vec_eq; vec_simpl; rewrite ?cos_neg, ?sin_neg, ?cos_PI2, ?sin_PI2; ring.
    - replace ((PI / 2 - g) * -1) with (- (PI / 2 - g)) by ring. replace (- (PI / 2) * -1) with (PI / 2) by ring.
      apply vec_eq; vec_simpl; rewrite ?cos_neg, ?sin_neg, ?cos_PI2, ?sin_PI2; ring. }
  split.
  - rewrite cone_undercut_fun. cbv zeta. replace (2 * g / 2) with g by field.
    rewrite (Rabs_right (rp / sin g)) by (apply Rle_ge, Rlt_le, Rdiv_lt_0_compat; assumption). fold (slant rp g).
    rewrite (sign_pos g) by lra. specialize (H 1 (or_introl eq_refl)). cbv zeta in H. rewrite H.
    generalize (crown_to_gear rp g (mapp (rotz (- t * sin g)) P)). intros v. vec_ring.
  - rewrite cone_undercut_fun. cbv zeta. replace (- (2 * g) / 2) with (- g) by field. rewrite sin_neg.
    replace (rp / - sin g) with (- (rp / sin g)) by (field; lra). rewrite Rabs_Ropp.
    rewrite (Rabs_right (rp / sin g)) by (apply Rle_ge, Rlt_le, Rdiv_lt_0_compat; assumption). fold (slant rp g).
    rewrite (sign_neg (- g)) by lra. specialize (H (-1) (or_intror eq_refl)). cbv zeta in H. rewrite H. unfold below.
    generalize (crown_to_gear rp g (mapp (rotz (- t * sin g)) P)). intros v. vec_ring.
Qed.

(** C96: height of the flank of the crown rack above its pitch plane; [u = 0] is the lower, [u = 1] the upper end. *)
Theorem C96_rack_height rp g alpha pia lm u : bevel rp g alpha ->
  vz (c_eval (cone_flat_rack rp pia alpha (2 * g) lm) u) =
  slant rp g * (cos alpha * sin ((u * (lm_ha lm + lm_hd lm) - lm_hd lm) / slant rp g / cos alpha)).
Proof.
  intros B. rewrite cone_rack_eval by exact B. generalize ((u * (lm_ha lm + lm_hd lm) - lm_hd lm) / slant rp g / cos alpha). intros b.
  vec_simpl. rewrite cos_shift, sin_shift. ring.
Qed.

(** The flank passes through the pitch circle of the crown wheel half a tooth from the middle. *)
Theorem C96_rack_pitch_point rp g alpha pia lm : bevel rp g alpha -> lm_ha lm + lm_hd lm <> 0 ->
  c_eval (cone_flat_rack rp pia alpha (2 * g) lm) (lm_hd lm / (lm_ha lm + lm_hd lm)) = circle_pt (slant rp g) (- pia * sin g).
Proof.
  intros B H. rewrite cone_rack_eval by exact B. destruct B as [R0 G A]. destruct (slant_pos rp g R0 ltac:(lra)) as (L & P).
  assert (C : 0 < cos alpha) by (apply cos_gt_0; lra).
  replace ((lm_hd lm / (lm_ha lm + lm_hd lm) * (lm_ha lm + lm_hd lm) - lm_hd lm) / slant rp g / cos alpha) with 0 by (field; lra).
  rewrite rotz_0, mapp_I. unfold circle_pt. vec_simpl. apply vec_eq; vec_simpl; ring.
Qed.

Lemma sin_concave c x : 0 < c < 1 -> 0 < x <= PI -> c * sin x < sin (c * x).
Proof.
  intros C X. assert (CX : 0 < c * x < x).
  { split; [apply Rmult_lt_0_compat; lra|]. assert (0 < (1 - c) * x) by (apply Rmult_lt_0_compat; lra). lra. }
  destruct (MVT_cor2 (fun y => sin (c * y) - c * sin y) (fun y => c * (cos (c * y) - cos y)) 0 x ltac:(lra)) as (y & E & Y).
  { intros y Y. apply is_derive_Reals. auto_derive; [exact I|]. ring. }
  rewrite Rmult_0_r, sin_0 in E. assert (0 < c * (cos (c * y) - cos y) * (x - 0)).
  { assert (0 < (1 - c) * y) by (apply Rmult_lt_0_compat; lra). assert (0 < c * y) by (apply Rmult_lt_0_compat; lra).
    assert (cos y < cos (c * y)) by (apply cos_decreasing_1; lra).
    apply Rmult_lt_0_compat; [apply Rmult_lt_0_compat|]; lra. }
  lra.
Qed.

(** C96: the lower end does not reach the dedendum (an angle [h_d / R] below the pitch plane): dividing the angle by
    [cos alpha] is exact in the plane only. *)
Theorem C96_rack_depth_refuted rp g alpha pia lm : bevel rp g alpha -> 0 < lm_hd lm / slant rp g <= PI * cos alpha ->
  - (slant rp g * sin (lm_hd lm / slant rp g)) < vz (c_eval (cone_flat_rack rp pia alpha (2 * g) lm) 0).
Proof.
  intros B H. rewrite C96_rack_height by exact B. destruct B as [R0 G A]. destruct (slant_pos rp g R0 ltac:(lra)) as (L & P).
  assert (C : 0 < cos alpha) by (apply cos_gt_0; lra). pose proof (COS_bound alpha).
  assert (C1 : cos alpha < 1) by (rewrite <- cos_0; apply cos_decreasing_1; lra).
  set (d := lm_hd lm / slant rp g) in *.
  replace ((0 * (lm_ha lm + lm_hd lm) - lm_hd lm) / slant rp g / cos alpha) with (- (d / cos alpha)) by (unfold d; field; lra).
  rewrite sin_neg. assert (X : 0 < d / cos alpha <= PI).
  { split; [apply Rdiv_lt_0_compat; lra|]. apply (Rmult_le_reg_r (cos alpha)); [exact C|].
    replace (d / cos alpha * cos alpha) with d by (field; lra). lra. }
  pose proof (sin_concave (cos alpha) (d / cos alpha) ltac:(lra) X) as K.
  replace (cos alpha * (d / cos alpha)) with d in K by (field; lra).
  assert (0 < slant rp g * (sin d - cos alpha * sin (d / cos alpha))) by (apply Rmult_lt_0_compat; lra). lra.
Qed.

Lemma ex_bevel : bevel 10 (PI / 4) (PI / 9).
Proof. pose proof PI_RGT_0. constructor; lra. Qed.
Example C96_example ts t :
  let X := gear_to_crown 10 (PI / 4) (turned (1 / 10 - t) (c_fun (octoid_flank ts 10 (PI / 9) (1 / 10) (2 * (PI / 4))) t)) in
  exists u, X = mapp (rotz ((1 / 10 - t) * 10 / slant 10 (PI / 4))) (c_eval (cone_flat_rack 10 (1 / 10) (PI / 9) (2 * (PI / 4)) default_limits) u).
Proof. cbn zeta. apply (C96_touches ts 10 (PI / 4) (PI / 9) (1 / 10) default_limits t ex_bevel). cbn. lra. Qed.
Example C96_rack_pitch_point_example :
  c_eval (cone_flat_rack 10 (1 / 10) (PI / 9) (2 * (PI / 4)) default_limits) (1.2 / (1 + 1.2)) =
  circle_pt (slant 10 (PI / 4)) (- (1 / 10) * sin (PI / 4)).
Proof. apply (C96_rack_pitch_point 10 (PI / 4) (PI / 9) (1 / 10) default_limits ex_bevel). cbn. lra. Qed.
Example C96_rack_height_example u : vz (c_eval (cone_flat_rack 10 (1 / 10) (PI / 9) (2 * (PI / 4)) default_limits) u) =
  slant 10 (PI / 4) * (cos (PI / 9) * sin ((u * (1 + 1.2) - 1.2) / slant 10 (PI / 4) / cos (PI / 9))).
Proof. exact (C96_rack_height 10 (PI / 4) (PI / 9) (1 / 10) default_limits u ex_bevel). Qed.
Example C93_cone_example t : turned (- t) (c_fun (cone_undercut 10 (2 * (PI / 4)) (V 14 1 (-1))) t) =
  crown_to_gear 10 (PI / 4) (mapp (rotz (- t * sin (PI / 4))) (V 14 1 (-1))).
Proof. pose proof PI_RGT_0. apply (C93_cone_path 10 (PI / 4)); lra. Qed.
