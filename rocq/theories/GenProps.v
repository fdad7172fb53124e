(** Properties C23-C27: generating curves (involute, spherical involute, cycloids, octoid). *)
From Coq Require Import Nsatz Reals Lra Psatz.
From Verif Require Import Num Vec Coords CoordsProps Gen.
Open Scope R_scope.

(** Points on the z axis and on the base circle, written out. *)
Definition on_z (h : R) : vec := V 0 0 h.
Definition circle_pt (r th : R) : vec := V (r * cos th) (r * sin th) 0.

Lemma rotz_RIGHT r th : mapp (rotz th) (smul r RIGHT) = circle_pt r th.
Proof. unfold circle_pt. vec_ring. Qed.

(** ** C23 *)
(** Taut string law: the string from the tangent point T = (r, t+angle) to the curve point has
    length r|t|, is perpendicular to the radius of T and so tangent to the base circle. *)
Theorem C23_string t r angle :
  let p := involute_circle t r angle ORIGIN 0 in
  let T := circle_pt r (t + angle) in
  dot (vsub p T) T = 0 /\ norm (vsub p T) = Rabs (r * t) /\ vz p = 0.
Proof.
  cbn zeta. set (p := involute_circle _ _ _ _ _).
  assert (E : vsub p (circle_pt r (t + angle)) = V (r * t * sin (t + angle)) (- (r * t * cos (t + angle))) 0).
  { unfold p, involute_circle, circle_pt. vec_ring. }
  rewrite E. repeat split.
  - unfold circle_pt. vec_ring.
  - apply norm_eq; [apply Rabs_pos|]. rewrite <- Rabs_mult, Rabs_right by (apply Rle_ge, Rle_0_sqr).
    vec_simpl. pose proof (sc1 (t + angle)). nsatz.
  - unfold p, involute_circle. vec_ring.
Qed.

Theorem C23_radius t r angle : 0 <= r ->
  norm (involute_circle t r angle ORIGIN 0) = r * sqrt (1 + t * t).
Proof.
  intros Hr. apply norm_eq; [apply Rmult_le_pos; [lra|apply sqrt_pos]|].
  replace (r * sqrt (1 + t * t) * (r * sqrt (1 + t * t)))
    with (r * r * (sqrt (1 + t * t) * sqrt (1 + t * t))) by ring.
  rewrite sqrt_sqrt by nra. unfold involute_circle. vec_simpl. pose proof (sc1 (t + angle)). nsatz.
Qed.
Example C23_radius_example : norm (involute_circle 2 3 1 ORIGIN 0) = 3 * sqrt (1 + 2 * 2).
Proof. apply C23_radius. lra. Qed.

Theorem C23_start r angle : involute_circle 0 r angle ORIGIN 0 = circle_pt r angle.
Proof. unfold involute_circle, circle_pt. rewrite Rplus_0_l. vec_ring. Qed.

(** Rotating the start angle rotates the curve; z_offs only lifts it; the offset vector turns
    with the tangent line. *)
Theorem C23_angle_rotates t r angle b v z :
  involute_circle t r (angle + b) v z = mapp (rotz b) (involute_circle t r angle v z).
Proof.
  unfold involute_circle. rewrite (mapp_vadd (rotz b)), (mapp_smul (rotz b)), rotz_OUT, <- mapp_mmul, rotz_plus.
  replace (b + (t + angle)) with (t + (angle + b)) by ring. reflexivity.
Qed.

Theorem C23_offset t r angle v z :
  vsub (involute_circle t r angle v z) (involute_circle t r angle ORIGIN 0) =
  vadd (mapp (rotz (t + angle)) v) (smul z OUT).
Proof. unfold involute_circle. destruct v. vec_ring. Qed.

(** Mirror image: the flank for -t is the mirror image about the xz plane (angle 0). *)
Theorem C23_mirror t r : 
  involute_circle (- t) r 0 ORIGIN 0 =
  V (vx (involute_circle t r 0 ORIGIN 0)) (- vy (involute_circle t r 0 ORIGIN 0)) 0.
Proof.
  unfold involute_circle. rewrite !Rplus_0_r.
  apply vec_eq; vec_simpl; rewrite ?cos_neg, ?sin_neg; ring.
Qed.

(** ** C24 *)
Lemma R_pos C : C <> 0 -> 0 < 1 / Rabs C.
Proof. intros. apply Rdiv_lt_0_compat; [lra|]. apply Rabs_pos_lt. assumption. Qed.

Lemma sin_asin_div r RR : 0 < RR -> - RR <= r <= RR -> RR * sin (asin (r / RR)) = r.
Proof.
  intros HR H. rewrite sin_asin; [field; lra|]. split.
  - apply Rmult_le_reg_r with RR; [lra|]. unfold Rdiv. rewrite Rmult_assoc, Rinv_l; lra.
  - apply Rmult_le_reg_r with RR; [lra|]. unfold Rdiv. rewrite Rmult_assoc, Rinv_l; lra.
Qed.

Lemma cos_asin_div r RR : 0 < RR -> - RR <= r <= RR -> RR * cos (asin (r / RR)) = sqrt (RR * RR - r * r).
Proof.
  intros HR H. pose proof (sin_asin_div r RR HR H) as S. pose proof (sc1 (asin (r / RR))) as E.
  assert (0 <= cos (asin (r / RR))).
  { apply cos_ge_0; destruct (asin_bound (r / RR)); lra. }
  symmetry. rewrite <- (sqrt_square (RR * cos (asin (r / RR)))) by (apply Rmult_le_pos; lra).
  f_equal. clear H0. revert S E. generalize (asin (r / RR)). intros a S E. nsatz.
Qed.

Theorem C24_sphere_distance t r C angle z : C <> 0 ->
  norm (vsub (involute_sphere t r C angle ORIGIN z)
             (on_z (sign C * sqrt (1 / Rabs C * (1 / Rabs C) - r * r) + z))) = 1 / Rabs C.
Proof.
  intros HC. unfold involute_sphere. destruct (Req_EM_T C 0); [contradiction|].
  set (RR := 1 / Rabs C). set (A := mmul _ (rotz (- _))).
  assert (RA : rotation A) by (unfold A; repeat apply rotation_mmul; auto using rotation_rotz, rotation_roty).
  rewrite mapp_ORIGIN, vadd_0_l.
  match goal with |- norm ?v = _ => replace v with (mapp A (smul RR RIGHT)) end.
  - rewrite orthogonal_norm by apply RA. rewrite norm_smul, Rabs_right.
    + replace (norm RIGHT) with 1; [ring|]. symmetry. apply norm_eq; [lra|]. vec_ring.
    + apply Rle_ge, Rlt_le, R_pos, HC.
  - generalize (mapp A (smul RR RIGHT)). intros [x y w]. unfold on_z. vec_ring.
Qed.
Example C24_sphere_distance_example :
  norm (vsub (involute_sphere 2 1 (-1/2) 1 ORIGIN 3)
             (on_z (sign (-1/2) * sqrt (1 / Rabs (-1/2) * (1 / Rabs (-1/2)) - 1 * 1) + 3))) = 1 / Rabs (-1/2).
Proof. apply C24_sphere_distance. lra. Qed.

Lemma sign_cases C : C <> 0 -> (sign C = 1) \/ (sign C = -1).
Proof.
  intros H. destruct (Rtotal_order C 0) as [L|[E|G]]; [right; apply sign_neg; lra|contradiction|left; apply sign_pos; lra].
Qed.

Lemma roty_sign_RIGHT C b : C <> 0 ->
  mapp (roty ((PI / 2 - b) * sign C)) RIGHT = V (sin b) 0 (- sign C * cos b).
Proof.
  intros H. destruct (sign_cases C H) as [-> | ->].
  - rewrite Rmult_1_r. apply vec_eq; vec_simpl; rewrite ?cos_shift, ?sin_shift; ring.
  - replace ((PI / 2 - b) * -1) with (- (PI / 2 - b)) by ring.
    apply vec_eq; vec_simpl; rewrite ?cos_neg, ?sin_neg, ?cos_shift, ?sin_shift; ring.
Qed.

(** The curve starts on the base circle. *)
Theorem C24_start r C angle : C <> 0 -> - (1 / Rabs C) <= r <= 1 / Rabs C ->
  involute_sphere 0 r C angle ORIGIN 0 = circle_pt r angle.
Proof.
  intros HC B. unfold involute_sphere. destruct (Req_EM_T C 0); [contradiction|].
  pose proof (R_pos C HC) as RP. set (RR := 1 / Rabs C) in *.
  rewrite mapp_ORIGIN, vadd_0_l, !Rmult_0_r, Ropp_0, rotz_0, mmul_I_r, mapp_smul, mapp_mmul.
  rewrite roty_sign_RIGHT by exact HC. rewrite <- cos_asin_div by assumption.
  pose proof (sin_asin_div r RR RP B) as S. rewrite Rplus_0_l. set (b := asin (r / RR)) in *.
  rewrite <- S. unfold circle_pt. vec_ring.
Qed.

(** Taut string law on the sphere: the great-circle arc from the tangent point to the curve point
    has length |r t| (angle r t / R seen from the sphere centre). *)
Theorem C24_string t r C angle : C <> 0 -> - (1 / Rabs C) <= r <= 1 / Rabs C ->
  let RR := 1 / Rabs C in
  let c := on_z (sign C * sqrt (RR * RR - r * r)) in
  let p := involute_sphere t r C angle ORIGIN 0 in
  let T := circle_pt r (t + angle) in
  dot (vsub p c) (vsub T c) = RR * RR * cos (r * t / RR) /\
  (* the string lies in the plane tangent to the base circle at T *)
  dot (vsub p c) (V (cos (t + angle)) (sin (t + angle)) 0) * sqrt (RR * RR - r * r) =
  - sign C * r * vz (vsub p c).
Proof.
  intros HC B. cbn zeta. pose proof (R_pos C HC) as RP.
  unfold involute_sphere. destruct (Req_EM_T C 0); [contradiction|].
  set (RR := 1 / Rabs C) in *.
  rewrite mapp_ORIGIN, vadd_0_l.
  rewrite <- cos_asin_div by assumption.
  pose proof (sin_asin_div r RR RP B) as S. set (b := asin (r / RR)) in *.
  set (phi := r / RR * t).
  assert (P : vsub (vadd (vadd (mapp (mmul (mmul (rotz (t + angle)) (roty ((PI / 2 - b) * sign C))) (rotz (- phi))) (smul RR RIGHT))
      (smul (sign C) (smul (RR * cos b) OUT))) (smul 0 OUT)) (on_z (sign C * (RR * cos b)))
      = mapp (rotz (t + angle)) (V (RR * (cos phi * sin b)) (- (RR * sin phi)) (- (RR * (sign C * (cos phi * cos b)))))).
  { rewrite !mapp_mmul.
    replace (mapp (rotz (- phi)) (smul RR RIGHT)) with
      (vadd (smul (RR * cos phi) RIGHT) (smul (- RR * sin phi) UP))
      by (apply vec_eq; vec_simpl; rewrite ?cos_neg, ?sin_neg; ring).
    rewrite mapp_vadd, !mapp_smul, roty_sign_RIGHT by exact HC.
    replace (mapp (roty ((PI / 2 - b) * sign C)) UP) with UP by vec_ring.
    unfold on_z. vec_ring. }
  rewrite P.
  assert (Tc : vsub (circle_pt r (t + angle)) (on_z (sign C * (RR * cos b))) =
     mapp (rotz (t + angle)) (V r 0 (- (sign C * (RR * cos b))))) by (unfold circle_pt, on_z; vec_ring).
  assert (N : V (cos (t + angle)) (sin (t + angle)) 0 = mapp (rotz (t + angle)) RIGHT) by vec_ring.
  rewrite Tc, N, !orthogonal_dot by apply rotation_rotz.
  pose proof (sc1 b) as SB. pose proof (sign_sqr C HC) as SS. split.
  - replace (r * t / RR) with phi by (unfold phi; field; lra). rewrite <- S. vec_simpl. nsatz.
  - rewrite <- S. vec_simpl. nsatz.
Qed.
Example C24_string_example :
  let RR := 1 / Rabs (1/2) in let c := on_z (sign (1/2) * sqrt (RR * RR - 1 * 1)) in
  dot (vsub (involute_sphere 2 1 (1/2) 1 ORIGIN 0) c) (vsub (circle_pt 1 (2 + 1)) c) = RR * RR * cos (1 * 2 / RR).
Proof.
  assert (E : 1 / Rabs (1/2) = 2) by (rewrite Rabs_right by lra; field).
  apply (C24_string 2 1 (1/2) 1); [lra|rewrite E; lra].
Qed.

(** With zero curvature the z offset is lost; with non-zero curvature it is applied. *)
Theorem C24_z_offset t r C angle v z :
  involute_sphere t r C angle v z =
  vadd (involute_sphere t r C angle v 0) (if Req_EM_T C 0 then ORIGIN else smul z OUT).
Proof.
  unfold involute_sphere. destruct (Req_EM_T C 0).
  - rewrite vadd_0_r. reflexivity.
  - generalize (mmul (mmul (rotz (t + angle)) (roty ((PI / 2 - asin (r / (1 / Rabs C))) * sign C))) (rotz (- (r / (1 / Rabs C) * t)))).
    intros A. vec_ring.
Qed.

Theorem C24_z_offset_refuted : exists t r angle v z,
  involute_sphere t r 0 angle v z <> vadd (involute_sphere t r 0 angle v 0) (smul z OUT).
Proof.
  exists 0, 1, 0, ORIGIN, 1. intros E. apply (f_equal vz) in E. revert E.
  unfold involute_sphere. destruct (Req_EM_T 0 0); [|contradiction]. unfold involute_circle. vec_simpl. lra.
Qed.

(** For zero curvature it is the plane involute. *)
Theorem C24_flat_is_plane t r angle v : involute_sphere t r 0 angle v 0 = involute_circle t r angle v 0.
Proof. unfold involute_sphere. destruct (Req_EM_T 0 0); [reflexivity|contradiction]. Qed.

Example C24_example : involute_sphere 0 1 (-1/2) 0 ORIGIN 0 = circle_pt 1 0.
Proof.
  apply C24_start; [lra|]. replace (1 / Rabs (-1/2)) with 2 by (rewrite Rabs_left by lra; field). lra.
Qed.

(** ** C25 *)
(** Rolling: the tracing point is at distance |rc| from the rolling circle's centre, which is at
    (rb+rc, t+angle); the angle from the line of centres equals the rolled arc t rb / rc. *)
Theorem C25_rolling t rb rc angle : rc <> 0 ->
  let p := cycloid_circle t rb rc angle ORIGIN 0 in
  let m := circle_pt (rb + rc) (t + angle) in
  let contact := circle_pt rb (t + angle) in
  norm (vsub p m) = Rabs rc /\
  dot (vsub p m) (vsub contact m) = rc * rc * cos (t * rb / rc) /\
  vz (cross (vsub contact m) (vsub p m)) = rc * rc * sin (t * rb / rc) /\ vz p = 0.
Proof.
  intros Hrc. cbn zeta.
  assert (E : vsub (cycloid_circle t rb rc angle ORIGIN 0) (circle_pt (rb + rc) (t + angle)) =
     smul (- rc) (V (cos (t + angle + t * rb / rc)) (sin (t + angle + t * rb / rc)) 0)).
  { unfold cycloid_circle, circle_pt. rewrite vadd_0_r, mapp_vadd, <- mapp_mmul, rotz_plus.
    vec_ring. }
  assert (D : vsub (circle_pt rb (t + angle)) (circle_pt (rb + rc) (t + angle)) =
     smul (- rc) (V (cos (t + angle)) (sin (t + angle)) 0)) by (unfold circle_pt; vec_ring).
  rewrite E, D. set (b := t * rb / rc). repeat split.
  - rewrite norm_smul, Rabs_Ropp. replace (norm _) with 1; [ring|].
    symmetry. apply norm_eq; [lra|]. vec_simpl. pose proof (sc1 (t + angle + b)). lra.
  - vec_simpl. replace b with (t + angle + b - (t + angle)) at 3 by ring. rewrite cos_minus. ring.
  - vec_simpl. replace b with (t + angle + b - (t + angle)) at 3 by ring. rewrite sin_minus. ring.
  - unfold cycloid_circle. vec_ring.
Qed.
Example C25_rolling_example :
  norm (vsub (cycloid_circle 2 3 (-1) 1 ORIGIN 0) (circle_pt (3 + -1) (2 + 1))) = Rabs (-1).
Proof. apply (C25_rolling 2 3 (-1) 1). lra. Qed.

Theorem C25_radius t rb rc angle : rc <> 0 ->
  let p := cycloid_circle t rb rc angle ORIGIN 0 in
  dot p p = rb * rb + 2 * rc * (rb + rc) * (1 - cos (t * rb / rc)).
Proof.
  intros Hrc. cbn zeta. unfold cycloid_circle. set (b := t * rb / rc).
  rewrite vadd_0_r. vec_simpl. pose proof (sc1 (t + angle)). pose proof (sc1 b). nsatz.
Qed.
Example C25_radius_example :
  let p := cycloid_circle 2 3 (-1) 1 ORIGIN 0 in dot p p = 3 * 3 + 2 * -1 * (3 + -1) * (1 - cos (2 * 3 / -1)).
Proof. apply (C25_radius 2 3 (-1) 1). lra. Qed.

(** Band: between rb and rb + 2 rc, both for rolling outside and inside. *)
Theorem C25_band t rb rc angle : rc <> 0 -> 0 < rb -> - rb < rc ->
  let p := cycloid_circle t rb rc angle ORIGIN 0 in
  Rmin rb (Rabs (rb + 2 * rc)) <= norm p <= Rmax rb (Rabs (rb + 2 * rc)).
Proof.
  intros Hrc Hb Hi. cbn zeta. set (p := cycloid_circle _ _ _ _ _ _).
  pose proof (C25_radius t rb rc angle Hrc) as Q. cbn zeta in Q. fold p in Q.
  pose proof (COS_bound (t * rb / rc)) as B. set (c := cos (t * rb / rc)) in *.
  pose proof (norm_sqr p) as N. pose proof (norm_nonneg p) as NP.
  assert (AB : Rabs (rb + 2 * rc) * Rabs (rb + 2 * rc) = (rb + 2 * rc) * (rb + 2 * rc)).
  { rewrite <- Rabs_mult. apply Rabs_right, Rle_ge, Rle_0_sqr. }
  pose proof (Rabs_pos (rb + 2 * rc)) as AP.
  destruct (Rlt_dec 0 rc).
  - assert (rb * rb <= norm p * norm p) by (rewrite N, Q; assert (0 <= rc * (rb + rc)) by nra; nra).
    assert (norm p * norm p <= (rb + 2 * rc) * (rb + 2 * rc))
      by (rewrite N, Q; assert (0 <= rc * (rb + rc)) by nra; nra).
    split.
    + eapply Rle_trans; [apply Rmin_l|]. nra.
    + eapply Rle_trans; [|apply Rmax_r]. nra.
  - assert (rc < 0) by lra.
    assert (norm p * norm p <= rb * rb) by (rewrite N, Q; assert (0 <= - rc * (rb + rc)) by nra; nra).
    assert ((rb + 2 * rc) * (rb + 2 * rc) <= norm p * norm p)
      by (rewrite N, Q; assert (0 <= - rc * (rb + rc)) by nra; nra).
    split.
    + eapply Rle_trans; [apply Rmin_r|]. nra.
    + eapply Rle_trans; [|apply Rmax_l]. nra.
Qed.
Example C25_band_example :
  Rmin 3 (Rabs (3 + 2 * -1)) <= norm (cycloid_circle 2 3 (-1) 1 ORIGIN 0) <= Rmax 3 (Rabs (3 + 2 * -1)).
Proof. apply (C25_band 2 3 (-1) 1); lra. Qed.

(** Start on the base circle and return after every full roll of the circle. *)
Theorem C25_returns k rb rc angle : rb <> 0 -> rc <> 0 ->
  cycloid_circle (2 * IZR k * PI * rc / rb) rb rc angle ORIGIN 0 =
  circle_pt rb (2 * IZR k * PI * rc / rb + angle).
Proof.
  intros Hb Hc. unfold cycloid_circle.
  replace (2 * IZR k * PI * rc / rb * rb / rc) with (0 + 2 * IZR k * PI) by (field; split; assumption).
  rewrite !vadd_0_r.
  assert (E : rotz (0 + 2 * IZR k * PI) = UNIT3X3).
  { unfold rotz. rewrite cos_Zperiod, sin_Zperiod, cos_0, sin_0. apply mat_eq; cbn; ring. }
  rewrite E, mapp_I. unfold circle_pt. vec_ring.
Qed.

(** Roll symmetry: the two flanks of one arch are mirror images. *)
Theorem C25_mirror t rb rc :
  cycloid_circle (- t) rb rc 0 ORIGIN 0 =
  V (vx (cycloid_circle t rb rc 0 ORIGIN 0)) (- vy (cycloid_circle t rb rc 0 ORIGIN 0)) 0.
Proof.
  unfold cycloid_circle. rewrite !Rplus_0_r.
  replace (- t * rb / rc) with (- (t * rb / rc)) by (unfold Rdiv; ring).
  apply vec_eq; vec_simpl; rewrite ?cos_neg, ?sin_neg; ring.
Qed.

Example C25_example : cycloid_circle (2 * IZR 1 * PI * 1 / 3) 3 1 0 ORIGIN 0 =
  circle_pt 3 (2 * IZR 1 * PI * 1 / 3 + 0).
Proof. apply C25_returns; lra. Qed.

(** ** C26 *)
Theorem C26_sphere_distance t rb rc C angle z : C <> 0 -> rc <> 0 ->
  - (1 / Rabs C) <= rb <= 1 / Rabs C -> - (1 / Rabs C) <= rc <= 1 / Rabs C ->
  exists p, cycloid_cone t rb rc C angle ORIGIN z = Ok p /\
   norm (vsub p (on_z (sign C * sqrt (1 / Rabs C * (1 / Rabs C) - rb * rb) + z))) = 1 / Rabs C.
Proof.
  intros HC Hrc B1 B2. unfold cycloid_cone. destruct (Req_EM_T C 0); [contradiction|].
  eexists. split; [reflexivity|].
  pose proof (R_pos C HC) as RP. set (RR := 1 / Rabs C) in *.
  rewrite <- cos_asin_div by assumption.
  pose proof (sin_asin_div rb RR RP B1) as S1. pose proof (sin_asin_div rc RR RP B2) as S2.
  set (g1 := asin (rb / RR)) in *. set (g2 := asin (rc / RR)) in *. set (b := t * rb / rc).
  assert (RY : forall x, roty (- sign C * x) = M (cos x) 0 (- sign C * sin x) 0 1 0 (sign C * sin x) 0 (cos x)).
  { intros x. destruct (sign_cases C HC) as [-> | ->].
    - replace (- (1) * x) with (- x) by ring. unfold roty. rewrite cos_neg, sin_neg. apply mat_eq; cbn; ring.
    - replace (- (-1) * x) with x by ring. unfold roty. apply mat_eq; cbn; ring. }
  rewrite RY.
  set (G := M _ _ _ _ _ _ _ _ _).
  set (w := V (rb + rc * (1 - cos b) * cos (g1 + g2)) (- rc * sin b) (sign C * (rc * (1 - cos b) * sin (g1 + g2) - RR * cos g1))).
  assert (E : vsub (vadd (mapp (rotz (t + angle)) (vadd (vadd (smul rb RIGHT) (mapp G (smul rc RIGHT)))
      (vadd (mapp G (vsub (mapp (rotz b) (vadd (smul rc LEFT) ORIGIN)) (smul 0 (smul (sign C) (smul (RR * cos g1) OUT)))))
            (smul 0 (smul (sign C) (smul (RR * cos g1) OUT)))))) (smul z OUT))
      (on_z (sign C * (RR * cos g1) + z)) = mapp (rotz (t + angle)) w).
  { unfold w, G, on_z. vec_ring. }
  rewrite E, orthogonal_norm by apply rotation_rotz.
  apply norm_eq; [lra|]. unfold w. vec_simpl. rewrite <- S1, <- S2, cos_plus, sin_plus.
  pose proof (sign_sqr C HC) as SS. pose proof (sc1 b) as X. pose proof (sc1 g1) as Y. pose proof (sc1 g2) as Z.
  assert (H2 : sign C * (RR * sin g2 * (1 - cos b) * (sin g1 * cos g2 + cos g1 * sin g2) - RR * cos g1) *
    (sign C * (RR * sin g2 * (1 - cos b) * (sin g1 * cos g2 + cos g1 * sin g2) - RR * cos g1)) =
    (RR * sin g2 * (1 - cos b) * (sin g1 * cos g2 + cos g1 * sin g2) - RR * cos g1) *
    (RR * sin g2 * (1 - cos b) * (sin g1 * cos g2 + cos g1 * sin g2) - RR * cos g1)).
  { set (q := RR * sin g2 * _ * _ - _). replace (sign C * q * (sign C * q)) with (sign C * sign C * (q * q)) by ring.
    rewrite SS. ring. }
  rewrite H2. clear H2 E RY.
  replace (sin b) with (sin b) by reflexivity.
  set (sb := sin b) in *. set (cb := cos b) in *. set (s1 := sin g1) in *. set (c1 := cos g1) in *.
  set (s2 := sin g2) in *. set (c2 := cos g2) in *.
  clearbody sb cb s1 c1 s2 c2. clear - X Y Z. nsatz.
Qed.

(** The contact point of the rolling cone is the base circle point at angle t+angle, and the
    traced point keeps the distance of the rolling circle: 2 |rc sin(beta/2)|. *)
Theorem C26_rolling t rb rc C angle : C <> 0 -> rc <> 0 ->
  exists p, cycloid_cone t rb rc C angle ORIGIN 0 = Ok p /\
    dot (vsub p (circle_pt rb (t + angle))) (vsub p (circle_pt rb (t + angle))) =
    2 * rc * rc * (1 - cos (t * rb / rc)).
Proof.
  intros HC Hrc. unfold cycloid_cone. destruct (Req_EM_T C 0); [contradiction|].
  eexists. split; [reflexivity|]. set (b := t * rb / rc). set (G := roty _).
  assert (RG : orthogonal G) by apply rotation_roty.
  match goal with |- dot ?v _ = _ => replace v with
    (mapp (rotz (t + angle)) (mapp G (V (rc * (1 - cos b)) (- rc * sin b) 0))) end.
  - rewrite !orthogonal_dot by (try exact RG; apply rotation_rotz). vec_simpl. pose proof (sc1 b). nsatz.
  - generalize (1 / Rabs C * (1 / Rabs C) - rb * rb). intros q. clearbody G. clear RG. unfold circle_pt. destruct G. vec_ring.
Qed.
Example C26_rolling_example :
  exists p, cycloid_cone 2 1 (1/4) (1/2) 1 ORIGIN 0 = Ok p
  /\ dot (vsub p (circle_pt 1 (2 + 1))) (vsub p (circle_pt 1 (2 + 1))) = 2 * (1/4) * (1/4) * (1 - cos (2 * 1 / (1/4))).
Proof. apply C26_rolling; lra. Qed.

Theorem C26_flat_case_raises t rb rc angle v z : cycloid_cone t rb rc 0 angle v z = Err NameError.
Proof. unfold cycloid_cone. destruct (Req_EM_T 0 0); [reflexivity|contradiction]. Qed.

Theorem C26_start rb rc C angle : C <> 0 ->
  exists p, cycloid_cone 0 rb rc C angle ORIGIN 0 = Ok p /\ p = circle_pt rb angle.
Proof.
  intros HC. unfold cycloid_cone. destruct (Req_EM_T C 0); [contradiction|].
  eexists. split; [reflexivity|]. 
  replace (0 * rb / rc) with 0 by (unfold Rdiv; ring). rewrite rotz_0, mapp_I, Rplus_0_l.
  generalize (1 / Rabs C * (1 / Rabs C) - rb * rb). intros q.
  generalize (roty (- sign C * (asin (rb / (1 / Rabs C)) + asin (rc / (1 / Rabs C))))). intros G.
  unfold circle_pt. vec_ring.
Qed.
Example C26_start_example : exists p, cycloid_cone 0 1 (1/4) (1/2) 1 ORIGIN 0 = Ok p /\ p = circle_pt 1 1.
Proof. apply C26_start. lra. Qed.

Example C26_example : exists p, cycloid_cone 1 1 (1/4) (1/2) 0 ORIGIN 0 = Ok p /\
  norm (vsub p (on_z (sign (1/2) * sqrt (1 / Rabs (1/2) * (1 / Rabs (1/2)) - 1 * 1) + 0))) = 1 / Rabs (1/2).
Proof.
  assert (E : 1 / Rabs (1/2) = 2) by (rewrite Rabs_right by lra; field).
  apply C26_sphere_distance; rewrite ?E; lra.
Qed.

(** ** C27 *)
Theorem C27_sphere_distance t base_rad sphere_rad alpha angle v z :
  0 < sphere_rad -> sin alpha <> 0 ->
  norm (vsub (octoid t base_rad sphere_rad alpha angle v z)
             (on_z (sqrt (sphere_rad * sphere_rad - base_rad * base_rad)))) = sphere_rad.
Proof.
  intros HR HA. unfold octoid.
  set (b := asin _). set (x := t * sin b). set (zs := sqrt (sphere_rad * sphere_rad - _)).
  set (Q := sin alpha * sin alpha * (sin x * sin x) + cos x * cos x).
  assert (QP : 0 < Q).
  { unfold Q. pose proof (sc1 x). assert (0 < sin alpha * sin alpha) by nra.
    destruct (Req_dec (cos x) 0) as [Z|Z].
    - rewrite Z in *. assert (sin x * sin x = 1) by lra. rewrite H1. lra.
    - assert (0 < cos x * cos x) by nra. assert (0 <= sin alpha * sin alpha * (sin x * sin x)) by (apply Rmult_le_pos; nra). lra. }
  match goal with |- norm (vsub (vadd (mapp ?A (smul ?k ?w)) _) _) = _ =>
    set (AA := A); set (kk := k); set (ww := w) end.
  assert (E : vsub (vadd (mapp AA (smul kk ww)) (smul zs OUT)) (on_z zs) = mapp AA (smul kk ww)).
  { generalize (mapp AA (smul kk ww)). intros [p q r]. unfold on_z. vec_ring. }
  rewrite E.
  rewrite orthogonal_norm by (unfold AA; apply rotation_mmul; [apply rotation_rotz|apply rotation_roty]).
  rewrite norm_smul. assert (N : norm ww = sqrt Q).
  { apply norm_eq; [apply sqrt_pos|]. rewrite sqrt_sqrt by lra. unfold ww, Q.
    pose proof (sc1 x) as X. pose proof (sc1 alpha) as Y. pose proof (sc1 t) as T. pose proof (sc1 b) as B.
    vec_simpl. generalize (sin x) (cos x) (sin alpha) (cos alpha) (sin t) (cos t) (sin b) (cos b) X Y T B.
    clear. intros. nsatz. }
  rewrite N. unfold kk.
  assert (SP : 0 < sqrt Q) by (apply sqrt_lt_R0; exact QP).
  fold Q. replace (- sphere_rad / sqrt Q) with (- (sphere_rad / sqrt Q)) by (field; lra).
  rewrite Rabs_Ropp, Rabs_right; [field; lra|]. apply Rle_ge, Rlt_le, Rdiv_lt_0_compat; lra.
Qed.
Example C27_sphere_distance_example :
  norm (vsub (octoid 2 1 2 (PI / 6) 1 ORIGIN 3) (on_z (sqrt (2 * 2 - 1 * 1)))) = 2.
Proof. apply C27_sphere_distance; [lra|]. rewrite sin_PI6. lra. Qed.

Theorem C27_offsets_ignored t base_rad sphere_rad alpha angle v z v' z' :
  octoid t base_rad sphere_rad alpha angle v z = octoid t base_rad sphere_rad alpha angle v' z'.
Proof. reflexivity. Qed.

Theorem C27_start base_rad sphere_rad alpha angle v z :
  0 < sphere_rad -> - sphere_rad <= base_rad <= sphere_rad ->
  octoid 0 base_rad sphere_rad alpha angle v z = circle_pt base_rad angle.
Proof.
  intros HR B. unfold octoid. pose proof (sin_asin_div base_rad sphere_rad HR B) as S.
  rewrite <- cos_asin_div by assumption. set (b := asin _) in *.
  rewrite Rmult_0_l, sin_0, cos_0.
  replace (sin alpha * sin alpha * (0 * 0) + 1 * 1) with 1 by ring. rewrite sqrt_1.
  rewrite <- S. unfold circle_pt. rewrite mapp_mmul.
  apply vec_eq; vec_simpl; rewrite ?cos_PI, ?sin_PI, ?cos_plus, ?sin_plus, ?cos_PI2, ?sin_PI2; field.
Qed.

(** The pressure-angle property of the octoid: at the pitch circle (t = 0) ... the curve for -alpha
    and -t is the mirror image, which is the symmetric flank. *)
Theorem C27_mirror t base_rad sphere_rad alpha v z :
  octoid (- t) base_rad sphere_rad (- alpha) 0 v z =
  V (vx (octoid t base_rad sphere_rad alpha 0 v z))
    (- vy (octoid t base_rad sphere_rad alpha 0 v z))
    (vz (octoid t base_rad sphere_rad alpha 0 v z)).
Proof.
  unfold octoid. set (b := asin _). rewrite Rplus_0_r, !mapp_mmul.
  replace (- t * sin b) with (- (t * sin b)) by ring. set (x := t * sin b).
  rewrite !sin_neg, !cos_neg.
  replace (- sin alpha * - sin alpha * (- sin x * - sin x) + cos x * cos x)
    with (sin alpha * sin alpha * (sin x * sin x) + cos x * cos x) by ring.
  generalize (- sphere_rad / sqrt (sin alpha * sin alpha * (sin x * sin x) + cos x * cos x)). intros k.
  apply vec_eq; vec_simpl; rewrite ?cos_PI, ?sin_PI, ?cos_PI2, ?sin_PI2; ring.
Qed.

Example C27_example : octoid 0 1 2 (PI / 9) 0 ORIGIN 0 = circle_pt 1 0.
Proof. apply C27_start; lra. Qed.
