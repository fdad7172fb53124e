(** C33-C35: arcs, transforming curves, mirrored and rotated curves. *)
From Coq Require Import Reals Lra Lia Psatz List.
From Verif Require Import Num Vec Transform TransformProps Coords CoordsProps Bezier Interp Curve CurveLem
  CurveProps ArcLem.
Import ListNotations.
Open Scope R_scope.

(** ** C33 *)

Lemma cols_dot m : orthogonal m ->
  dot (col1 m) (col1 m) = 1 /\ dot (col2 m) (col2 m) = 1 /\ dot (col1 m) (col2 m) = 0 /\
  dot (col1 m) (col3 m) = 0 /\ dot (col2 m) (col3 m) = 0 /\ dot (col3 m) (col3 m) = 1.
Proof.
  intros H. unfold orthogonal in H. destruct m. vec_simpl. injection H; intros. repeat split; lra.
Qed.

Lemma cross_cols m : rotation m -> cross (col3 m) (col1 m) = col2 m.
Proof.
  intros H. destruct (rotation_cofactor m H) as (K1&K2&K3&K4&K5&K6&K7&K8&K9).
  destruct m. vec_simpl. apply vec_eq; vec_simpl; lra.
Qed.

Lemma arc_shape_eval r a ce m t :
  shape_fun (SArc r a ce m) t =
  vadd (smul r (vadd (smul (cos (a * t)) (col1 m)) (smul (sin (a * t)) (col2 m)))) ce.
Proof. cbn [shape_fun]. f_equal. vec_ring. Qed.

(** Every point of an arc object, trimmed or not, lies on the circle about its centre with its
    radius in the plane normal to its axis. *)
Theorem C33_on_circle c r a ce yaw pitch roll s :
  c_shape c = SArc r a ce (euler_zyx yaw pitch roll) -> 0 <= r ->
  norm (vsub (c_eval c s) ce) = r /\
  dot (vsub (c_eval c s) ce) (arc_axis (euler_zyx yaw pitch roll)) = 0.
Proof.
  intros E Hr. unfold c_eval, c_fun. rewrite E, arc_shape_eval, vsub_vadd.
  set (m := euler_zyx yaw pitch roll).
  assert (O : orthogonal m) by apply rotation_euler.
  destruct (cols_dot m O) as (X & Y & XY & XZ & YZ & Z). clearbody m.
  replace (arc_axis m) with (col3 m) by (unfold arc_axis; vec_ring).
  set (u := a * s2t c s). pose proof (sc1 u) as SC. split.
  - apply norm_eq; [exact Hr|].
    rewrite dot_smul_l, dot_smul_r, !dot_vadd_l, (dot_comm _ (vadd _ _)), (dot_comm (smul (sin u) _)),
      !dot_vadd_l, !dot_smul_l, !dot_smul_r, X, Y, (dot_comm (col2 m)), XY.
    transitivity (r * r * (sin u * sin u + cos u * cos u)); [ring|]. rewrite SC. ring.
  - rewrite dot_smul_l, dot_vadd_l, !dot_smul_l, XZ, YZ. ring.
Qed.
Example C33_on_circle_example :
  norm (vsub (c_eval (arc_curve 3 1 RIGHT (1/2) (1/3) 2 true) (1/4)) RIGHT) = 3.
Proof.
  refine (proj1 (C33_on_circle _ 3 1 RIGHT (1/2) (1/3) 2 (1/4) _ _)); [|lra].
  unfold arc_curve. apply update_shape.
Qed.

Lemma triple a b : cross (cross a b) a = vsub (smul (dot a a) b) (smul (dot a b) a).
Proof. vec_ring. Qed.

Lemma cross_nz a b : cross a b <> ORIGIN -> a <> ORIGIN /\ b <> ORIGIN.
Proof.
  intros H. split; intros ->; apply H; vec_ring.
Qed.

Lemma dot_cross_l a b : dot a (cross a b) = 0. Proof. vec_ring. Qed.
Lemma dot_cross_r a b : dot b (cross a b) = 0. Proof. vec_ring. Qed.

Lemma two_point_frame a b : cross a b <> ORIGIN ->
  rotation (of_cols (normalize a) (cross (normalize (cross a b)) (normalize a)) (normalize (cross a b))).
Proof.
  intros H. destruct (cross_nz a b H). apply frame_rotation2; try (apply normalize_dot; assumption).
  unfold normalize. rewrite dot_smul_l, dot_smul_r, dot_cross_l. ring.
Qed.

(** Arc through two points about a centre at equal distance from both: it starts and ends there;
    extra turns do not matter. *)
Theorem C33_two_point_center p0 p1 ce (k : Z) act :
  norm (vsub p0 ce) = norm (vsub p1 ce) -> cross (vsub p0 ce) (vsub p1 ce) <> ORIGIN ->
  let c := from_2_point_center p0 p1 ce (IZR k) act in
  c_eval c 0 = p0 /\ c_eval c 1 = p1.
Proof.
  intros EN HC c. unfold c, from_2_point_center.
  set (a := vsub p0 ce) in *. set (b := vsub p1 ce) in *.
  assert (P0 : p0 = vadd a ce) by (unfold a; symmetry; apply vadd_vsub).
  assert (P1 : p1 = vadd b ce) by (unfold b; symmetry; apply vadd_vsub).
  rewrite P0, P1. clearbody a b. clear P0 P1 c.
  destruct (cross_nz a b HC) as [Ha Hb]. pose proof (norm_pos a Ha) as NA.
  pose proof (norm_pos _ HC) as NC.
  rewrite !arc_frame_eval by (apply two_point_frame; exact HC).
  rewrite Rmult_0_r, Rmult_1_r, cos_0, sin_0.
  replace (angle_between a b + IZR k * PI * 2) with (angle_between a b + 2 * IZR k * PI) by ring.
  rewrite cos_Zperiod, sin_Zperiod.
  destruct (C14_angle_cos_sin a b) as [C S]. rewrite <- EN in C, S.
  pose proof (norm_sqr a) as NS.
  set (th := angle_between a b) in *. split; f_equal.
  - transitivity (smul (norm a) (normalize a)).
    + generalize (normalize a), (cross (normalize (cross a b)) (normalize a)). vec_ring.
    + symmetry. apply normalize_eq, Ha.
  - transitivity (vadd (smul (cos th) (smul (norm a) (normalize a)))
      (smul (sin th) (cross (normalize (cross a b)) (smul (norm a) (normalize a))))).
    { generalize (normalize a), (normalize (cross a b)). vec_ring. }
    rewrite <- (normalize_eq a Ha).
    replace (cross (normalize (cross a b)) a) with (smul (/ norm (cross a b)) (cross (cross a b) a))
      by (unfold normalize; vec_ring).
    rewrite triple, smul_smul, <- C, <- NS.
    replace (sin th * / norm (cross a b)) with (/ (norm a * norm a)).
    + destruct a as [a1 a2 a3], b as [b1 b2 b3]. set (n := norm (V a1 a2 a3)) in *. clearbody n.
      apply vec_eq; vec_simpl; field; lra.
    + assert (sin th <> 0) by (intros Z0; rewrite Z0, Rmult_0_r in S; lra).
      rewrite <- S. field. split; [assumption|lra].
Qed.

Lemma arc_new_shape r a ce m act : c_shape (new_curve (SArc r a ce m) act 0 1 NDIV) = SArc r a ce m.
Proof. unfold new_curve. destruct act; reflexivity. Qed.

(** The short arc: without extra turns the angle is between 0 and pi, and the arc turns from the
    first to the second point about its axis. *)
Theorem C33_two_point_center_shape p0 p1 ce (k : Z) act :
  cross (vsub p0 ce) (vsub p1 ce) <> ORIGIN ->
  exists th m, c_shape (from_2_point_center p0 p1 ce (IZR k) act) =
    SArc (norm (vsub p0 ce)) (th + 2 * IZR k * PI) ce m /\ 0 <= th <= PI /\
    arc_axis m = normalize (cross (vsub p0 ce) (vsub p1 ce)).
Proof.
  intros H. eexists (angle_between (vsub p0 ce) (vsub p1 ce)), _. split; [|split].
  - unfold from_2_point_center. rewrite arc_frame_shape by (apply two_point_frame; exact H).
    rewrite arc_new_shape. f_equal. ring.
  - apply C14_angle_range.
  - generalize (normalize (cross (vsub p0 ce) (vsub p1 ce))). intros z.
    generalize (normalize (vsub p0 ce)) as x. unfold arc_axis. vec_ring.
Qed.
Example C33_two_point_center_shape_example : exists th m,
  c_shape (from_2_point_center RIGHT (V 0 2 0) ORIGIN 0 true) = SArc (norm (vsub RIGHT ORIGIN)) (th + 2 * 0 * PI) ORIGIN m
  /\ 0 <= th <= PI /\ arc_axis m = normalize (cross (vsub RIGHT ORIGIN) (vsub (V 0 2 0) ORIGIN)).
Proof. apply (C33_two_point_center_shape RIGHT (V 0 2 0) ORIGIN 0 true). intros E. vec_simpl. injection E. lra. Qed.

(** Data of [from_2_point_curvature]. *)
Lemma curvature_frame p0 p1 axis : p0 <> p1 -> cross (vsub p1 p0) axis <> ORIGIN ->
  exists u w, vsub p1 p0 = smul (norm (vsub p1 p0)) u /\ dot u u = 1 /\ dot w w = 1 /\ dot u w = 0 /\
    0 < dot w axis /\ 0 < norm (vsub p1 p0) /\
    forall k, curvature_center p0 p1 k axis =
      let d := norm (vsub p1 p0) in
      let r := if Rlt_dec (Rabs (/ k)) (d / 2) then d / 2 * sign (/ k) else / k in
      vsub (smul (/ 2) (vadd p0 p1)) (smul (sqrt (r * r - d / 2 * (d / 2)) * sign r) (cross u w)).
Proof.
  intros NE HC.
  assert (D : vsub p1 p0 <> ORIGIN).
  { intros E. apply NE. rewrite <- (vadd_vsub p1 p0), E, vadd_0_l. reflexivity. }
  set (u := normalize (vsub p1 p0)). set (q := vsub axis (smul (dot axis u) u)).
  assert (U : dot u u = 1) by (apply normalize_dot, D).
  assert (UQ : dot u q = 0).
  { unfold q. rewrite dot_comm, dot_vsub_l, dot_smul_l, U. ring. }
  assert (Q : q <> ORIGIN).
  { intros E. apply HC. rewrite (normalize_eq _ D). fold u.
    replace axis with (vadd q (smul (dot axis u) u)) by (unfold q; vec_ring).
    rewrite E. generalize (norm (vsub p1 p0)), (dot axis u). clear. clearbody u. vec_ring. }
  exists u, (normalize q). split; [apply normalize_eq, D|].
  split; [exact U|]. split; [apply normalize_dot, Q|].
  split; [unfold normalize; rewrite dot_smul_r, UQ; ring|].
  split; [|split].
  - replace axis with (vadd q (smul (dot axis u) u)) at 1 by (unfold q; vec_ring).
    rewrite dot_comm, dot_vadd_l, dot_smul_l. unfold normalize. rewrite !dot_smul_r, UQ.
    pose proof (norm_pos q Q). rewrite <- norm_sqr.
    replace (/ norm q * (norm q * norm q) + dot axis u * (/ norm q * 0)) with (norm q) by (field; lra).
    assumption.
  - apply norm_pos, D.
  - intros k. unfold curvature_center. destruct (vec_eq_dec (vsub p1 p0) ORIGIN); [contradiction|]. reflexivity.
Qed.

Lemma arc_center_algebra p0 p1 u w d h : vsub p1 p0 = smul d u -> dot u u = 1 -> dot w w = 1 -> dot u w = 0 ->
  let ce := vsub (smul (/ 2) (vadd p0 p1)) (smul h (cross u w)) in
  dot (vsub p0 ce) (vsub p0 ce) = d / 2 * (d / 2) + h * h /\
  dot (vsub p1 ce) (vsub p1 ce) = d / 2 * (d / 2) + h * h /\
  cross (vsub p0 ce) (vsub p1 ce) = smul (d * h) w.
Proof.
  intros E U W UW ce.
  assert (P1 : p1 = vadd (smul d u) p0) by (rewrite <- E; symmetry; apply vadd_vsub).
  assert (A : vsub p0 ce = vadd (smul (- (d / 2)) u) (smul h (cross u w))).
  { unfold ce. rewrite P1. clear. destruct p0, u, w. vec_simpl. apply vec_eq; vec_simpl; field. }
  assert (B : vsub p1 ce = vadd (smul (d / 2) u) (smul h (cross u w))).
  { unfold ce. rewrite P1. clear. destruct p0, u, w. vec_simpl. apply vec_eq; vec_simpl; field. }
  rewrite A, B. clear A B ce E P1.
  assert (Q : dot (cross u w) (cross u w) = 1) by (rewrite lagrange, U, W, UW; ring).
  assert (UQ : dot u (cross u w) = 0) by apply dot_cross_l.
  assert (UxQ : cross u (cross u w) = vopp w).
  { transitivity (vsub (smul (dot u w) u) (smul (dot u u) w)); [clear; vec_ring|]. rewrite U, UW. vec_ring. }
  set (q := cross u w) in *. clearbody q. split; [|split].
  - transitivity (d / 2 * (d / 2) * dot u u - d * h * dot u q + h * h * dot q q);
      [clear; destruct u, q; vec_simpl; field|rewrite U, UQ, Q; ring].
  - transitivity (d / 2 * (d / 2) * dot u u + d * h * dot u q + h * h * dot q q);
      [clear; destruct u, q; vec_simpl; field|rewrite U, UQ, Q; ring].
  - transitivity (smul (- (d * h)) (cross u q)); [clear; destruct u, q; vec_simpl; apply vec_eq; vec_simpl; field|].
    rewrite UxQ. vec_ring.
Qed.

(** Arc through two points with a curvature whose circle is larger than the chord circle. *)
Theorem C33_two_point_curvature p0 p1 kappa axis (n : Z) act :
  p0 <> p1 -> cross (vsub p1 p0) axis <> ORIGIN -> kappa <> 0 ->
  norm (vsub p1 p0) / 2 < / Rabs kappa ->
  let c := from_2_point_curvature p0 p1 kappa axis (IZR n) act in
  c_eval c 0 = p0 /\ c_eval c 1 = p1 /\
  exists th ce m, c_shape c = SArc (/ Rabs kappa) th ce m /\
    norm (vsub p0 ce) = / Rabs kappa /\ norm (vsub p1 ce) = / Rabs kappa /\
    dot (arc_axis m) (vsub p1 p0) = 0 /\ 0 < kappa * dot (arc_axis m) axis.
Proof.
  intros NE HC K0 HK c. unfold c, from_2_point_curvature.
  destruct (curvature_frame p0 p1 axis NE HC) as (u & w & E & U & W & UW & WA & DP & CE).
  rewrite CE. clear CE. cbv zeta. set (d := norm (vsub p1 p0)) in *.
  pose proof (Rabs_pos_lt kappa K0) as AK.
  destruct (Rlt_dec (Rabs (/ kappa)) (d / 2)) as [L|_]; [rewrite Rabs_inv in L by assumption; lra|].
  set (h := sqrt (/ kappa * / kappa - d / 2 * (d / 2)) * sign (/ kappa)).
  assert (KK : / kappa * / kappa = / Rabs kappa * / Rabs kappa).
  { rewrite <- !Rinv_mult. f_equal. rewrite <- Rabs_mult, Rabs_right; [reflexivity|nra]. }
  assert (P : 0 < / kappa * / kappa - d / 2 * (d / 2)) by (rewrite KK; nra).
  assert (SK : 0 < kappa * sign (/ kappa)).
  { destruct (Rlt_dec 0 kappa).
    - rewrite sign_pos by (apply Rinv_0_lt_compat; assumption). lra.
    - rewrite sign_neg by (apply Rinv_lt_0_compat; lra). lra. }
  assert (HH : d / 2 * (d / 2) + h * h = / Rabs kappa * / Rabs kappa).
  { unfold h. transitivity (d / 2 * (d / 2) + sqrt (/ kappa * / kappa - d / 2 * (d / 2)) *
      sqrt (/ kappa * / kappa - d / 2 * (d / 2)) * (sign (/ kappa) * sign (/ kappa))); [ring|].
    rewrite sqrt_sqrt by lra. rewrite sign_sqr by (apply Rinv_neq_0_compat; exact K0). rewrite KK. ring. }
  assert (Hh : 0 < kappa * h).
  { unfold h. pose proof (sqrt_lt_R0 _ P). replace (kappa * _) with
      (sqrt (/ kappa * / kappa - d / 2 * (d / 2)) * (kappa * sign (/ kappa))) by ring. nra. }
  assert (H0 : h <> 0) by (intros Z; rewrite Z in Hh; lra).
  destruct (arc_center_algebra p0 p1 u w d h E U W UW) as (A0 & A1 & AX).
  set (ce := vsub (smul (/ 2) (vadd p0 p1)) (smul h (cross u w))) in *.
  assert (R0 : norm (vsub p0 ce) = / Rabs kappa).
  { apply norm_eq; [left; apply Rinv_0_lt_compat; assumption|]. rewrite A0. exact HH. }
  assert (R1 : norm (vsub p1 ce) = / Rabs kappa).
  { apply norm_eq; [left; apply Rinv_0_lt_compat; assumption|]. rewrite A1. exact HH. }
  assert (X : cross (vsub p0 ce) (vsub p1 ce) <> ORIGIN).
  { rewrite AX. intros Z. apply (f_equal (fun v => dot v w)) in Z. rewrite dot_smul_l, W in Z.
    replace (dot ORIGIN w) with 0 in Z by vec_ring. assert (d * h <> 0) by (apply Rmult_integral_contrapositive; lra). lra. }
  destruct (C33_two_point_center p0 p1 ce n act ltac:(congruence) X) as [S0 S1].
  split; [exact S0|]. split; [exact S1|].
  destruct (C33_two_point_center_shape p0 p1 ce n act X) as (th & m & SH & _ & AM).
  exists (th + 2 * IZR n * PI), ce, m. rewrite SH, R0. repeat (split; [solve [auto]|]).
  rewrite AM, AX. unfold normalize. rewrite smul_smul, norm_smul, (norm_eq w 1) by lra.
  rewrite !dot_smul_l. split.
  - rewrite E, dot_smul_r, (dot_comm w u), UW. ring.
  - rewrite Rabs_mult, (Rabs_right d) by lra. pose proof (Rabs_pos_lt h H0).
    replace (kappa * (/ (d * Rabs h * 1) * (d * h) * dot w axis))
      with (kappa * h * dot w axis * / Rabs h) by (field; lra).
    apply Rmult_lt_0_compat; [nra|apply Rinv_0_lt_compat; assumption].
Qed.

(** A curvature whose radius is at most half the chord: the centre is the chord's midpoint, where
    the plane of the arc is undefined, so the construction is degenerate. *)
Theorem C33_two_point_curvature_degenerate p0 p1 kappa axis :
  p0 <> p1 -> cross (vsub p1 p0) axis <> ORIGIN -> kappa <> 0 ->
  / Rabs kappa <= norm (vsub p1 p0) / 2 ->
  curvature_center p0 p1 kappa axis = smul (/ 2) (vadd p0 p1) /\
  cross (vsub p0 (curvature_center p0 p1 kappa axis)) (vsub p1 (curvature_center p0 p1 kappa axis)) = ORIGIN.
Proof.
  intros NE HC K0 HK.
  destruct (curvature_frame p0 p1 axis NE HC) as (u & w & E & U & W & UW & WA & DP & CE).
  assert (EC : curvature_center p0 p1 kappa axis = smul (/ 2) (vadd p0 p1)).
  { rewrite CE. cbv zeta. set (d := norm (vsub p1 p0)) in *. set (r := if Rlt_dec _ _ then _ else _).
    assert (RR : r * r - d / 2 * (d / 2) = 0).
    { unfold r. rewrite (Rabs_inv kappa). destruct (Rlt_dec (/ Rabs kappa) (d / 2)).
      - transitivity (d / 2 * (d / 2) * (sign (/ kappa) * sign (/ kappa) - 1)); [ring|].
        rewrite sign_sqr by (apply Rinv_neq_0_compat; exact K0). ring.
      - replace (d / 2) with (/ Rabs kappa) by lra.
        rewrite <- !Rinv_mult, <- Rabs_mult, (Rabs_right (kappa * kappa)) by nra. ring. }
    rewrite RR, sqrt_0. vec_ring. }
  split; [exact EC|]. rewrite EC. clear. destruct p0, p1. vec_simpl. apply vec_eq; vec_simpl; field.
Qed.
Example C33_two_point_curvature_degenerate_example : curvature_center (V (-2) 0 0) (V 2 0 0) 1 OUT = ORIGIN.
Proof.
  destruct (C33_two_point_curvature_degenerate (V (-2) 0 0) (V 2 0 0) 1 OUT) as [E _].
  - intros E. injection E. lra.
  - intros E. vec_simpl. injection E. lra.
  - lra.
  - rewrite Rabs_R1, Rinv_1. rewrite (norm_eq _ 4); [lra|lra|vec_simpl; ring].
  - rewrite E. apply vec_eq; vec_simpl; field.
Qed.

(** Arc from a point turning about an axis normal to the radius. *)
Theorem C33_point_center_angle p0 ce angle axis act s :
  p0 <> ce -> dot axis axis = 1 -> dot axis (vsub p0 ce) = 0 ->
  c_eval (from_point_center_angle p0 ce angle axis act) s =
  vadd (mapp (rodrigues axis (angle * s)) (vsub p0 ce)) ce.
Proof.
  intros NE AA AP.
  assert (D : vsub p0 ce <> ORIGIN).
  { intros E. apply NE. rewrite <- (vadd_vsub p0 ce), E, vadd_0_l. reflexivity. }
  unfold from_point_center_angle.
  set (x := normalize (vsub p0 ce)).
  assert (X : dot x x = 1) by (apply normalize_dot, D).
  assert (AX : dot axis x = 0) by (unfold x, normalize; rewrite dot_smul_r, AP; ring).
  assert (Y : dot (cross axis x) (cross axis x) = 1) by (rewrite lagrange, AA, X, AX; ring).
  rewrite (normalize_unit (cross axis x)) by exact Y.
  rewrite arc_frame_eval.
  - f_equal. rewrite mapp_rodrigues, AP.
    rewrite (normalize_eq _ D) at 2 3. fold x. set (n := norm (vsub p0 ce)). clearbody n x. vec_ring.
  - apply frame_rotation; auto. apply dot_cross_r.
Qed.
Example C33_point_center_angle_example s : c_eval (from_point_center_angle (V 2 0 5) (V 0 0 5) 3 OUT true) s =
  vadd (mapp (rodrigues OUT (3 * s)) (vsub (V 2 0 5) (V 0 0 5))) (V 0 0 5).
Proof.
  apply C33_point_center_angle; [|vec_simpl; ring|vec_simpl; ring]. intros E. injection E. lra.
Qed.

(** Arc about OUT from a start to an end angle. *)
Theorem C33_radius_center_angle r ce a0 a1 act s :
  c_eval (from_radius_center_angle r ce a0 a1 OUT act) s =
  vadd (V (r * cos (a0 + (a1 - a0) * s)) (r * sin (a0 + (a1 - a0) * s)) 0) ce.
Proof.
  unfold from_radius_center_angle.
  replace (cross UP OUT) with RIGHT by vec_ring.
  assert (N : norm RIGHT = 1) by (apply norm_eq; [lra|vec_simpl; ring]).
  rewrite N. destruct (Req_EM_T 1 0); [lra|].
  rewrite (normalize_unit RIGHT) by (vec_simpl; ring).
  replace (cross OUT RIGHT) with UP by vec_ring.
  assert (Q : as_euler_zyx (of_cols RIGHT UP OUT) = (0, 0, 0)).
  { unfold as_euler_zyx. vec_simpl. destruct (Req_EM_T _ _); [lra|].
    rewrite asin_0. rewrite Ropp_0, !atan2_0_pos by lra. reflexivity. }
  rewrite Q. unfold arc_curve. rewrite arc_new_eval. f_equal.
  apply vec_eq; vec_simpl; rewrite ?cos_0, ?sin_0, ?cos_plus, ?sin_plus; ring.
Qed.

(** The axis is as requested for every unit axis ... *)
Theorem C33_radius_center_angle_axis r ce a0 a1 axis act : dot axis axis = 1 ->
  exists m, c_shape (from_radius_center_angle r ce a0 a1 axis act) = SArc r (a1 - a0) ce m /\
    arc_axis m = axis.
Proof.
  intros AA. unfold from_radius_center_angle.
  set (x := if Req_EM_T (norm (cross UP axis)) 0 then OUT else normalize (cross UP axis)).
  assert (HX : dot x x = 1 /\ dot x axis = 0).
  { unfold x. destruct (Req_EM_T _ _) as [E|E].
    - apply norm_zero in E. destruct axis as [x1 x2 x3]. vec_simpl. injection E. intros. split; lra.
    - assert (cross UP axis <> ORIGIN) by (intros Z; rewrite Z, norm_ORIGIN in E; lra).
      split; [apply normalize_dot; assumption|]. unfold normalize.
      rewrite dot_smul_l, dot_comm, dot_cross_r. ring. }
  destruct HX as [X XA].
  pose proof (euler_as_euler _ (frame_rotation2 x axis X AA XA)) as Q.
  destruct (as_euler_zyx _) as [[yaw pitch] roll].
  eexists. split; [apply arc_new_shape|].
  transitivity (mapp (euler_zyx yaw pitch roll) OUT).
  - unfold arc_axis, euler_zyx. rewrite !mapp_mmul, !rotz_OUT. reflexivity.
  - rewrite Q. clearbody x. clear. vec_ring.
Qed.
Example C33_radius_center_angle_axis_example : exists m,
  c_shape (from_radius_center_angle 2 RIGHT 1 4 (V (3/5) (4/5) 0) true) = SArc 2 (4 - 1) RIGHT m /\
  arc_axis m = V (3/5) (4/5) 0.
Proof. apply C33_radius_center_angle_axis. vec_simpl. field. Qed.

(** ... but the start direction is not the one of the frame the constructor computed: for axis UP the
    frame starts at OUT (line 1291) and the arc starts at RIGHT. *)
Theorem C33_radius_center_angle_start_refuted :
  c_eval (from_radius_center_angle 1 ORIGIN 0 (PI / 2) UP true) 0 = RIGHT /\ RIGHT <> OUT.
Proof.
  split; [|intros E; injection E; lra].
  unfold from_radius_center_angle.
  replace (cross UP UP) with ORIGIN by vec_ring. rewrite norm_ORIGIN.
  destruct (Req_EM_T 0 0); [|lra].
  replace (cross UP OUT) with RIGHT by vec_ring.
  unfold as_euler_zyx. vec_simpl. destruct (Req_EM_T _ _); [lra|].
  unfold arc_curve. rewrite arc_new_eval. rewrite asin_0.
  apply vec_eq; vec_simpl; rewrite ?Rmult_0_r, ?cos_0, ?sin_0; ring.
Qed.

(** Reported length. *)
Theorem C33_length r a ce yaw pitch roll : c_length (arc_curve r a ce yaw pitch roll true) = r * a.
Proof. reflexivity. Qed.

(** Any chord of the arc is at most the share of [r * |a|] between its parameters, so no polyline
    through points of the arc between parameters u and v is longer than that share. *)
Theorem C33_chord_bound r a ce yaw pitch roll act u v : 0 <= r ->
  norm (vsub (c_eval (arc_curve r a ce yaw pitch roll act) u)
             (c_eval (arc_curve r a ce yaw pitch roll act) v)) <= r * Rabs a * Rabs (u - v).
Proof.
  intros Hr. unfold arc_curve. rewrite !arc_new_eval.
  destruct (cols_dot (euler_zyx yaw pitch roll) ltac:(apply rotation_euler)) as (X & Y & XY & _).
  set (x := col1 (euler_zyx yaw pitch roll)) in *. set (y := col2 (euler_zyx yaw pitch roll)) in *.
  clearbody x y.
  assert (TR : forall p q w, vsub (vadd p w) (vadd q w) = vsub p q) by vec_ring. rewrite TR.
  rewrite chord_frame by assumption.
  pose proof (Rabs_sin_le ((a * u - a * v) / 2)) as B.
  replace ((a * u - a * v) / 2) with (/ 2 * (a * (u - v))) in * by field.
  rewrite (Rabs_mult (/ 2)), (Rabs_mult a), (Rabs_right (/ 2)) in B by lra.
  pose proof (Rmult_le_compat_l (2 * r) _ _ ltac:(lra) B). lra.
Qed.
Example C33_chord_bound_example :
  norm (vsub (c_eval (arc_curve 3 2 RIGHT 1 1 1 true) (1/4)) (c_eval (arc_curve 3 2 RIGHT 1 1 1 true) (3/4))) <= 3.
Proof.
  eapply Rle_trans; [apply C33_chord_bound; lra|]. rewrite (Rabs_right 2) by lra.
  rewrite Rabs_left by lra. lra.
Qed.

(** After trimming, the curve is the part of the arc between the trim points but the reported length
    is still that of the whole arc. *)
Theorem C33_trimmed_length_refuted r a ce yaw pitch roll s1 : 0 < r -> 0 < a -> 0 < s1 < 1 ->
  let c := set_end_on (arc_curve r a ce yaw pitch roll true) s1 in
  c_length c = r * a /\
  (forall u v, norm (vsub (c_eval c u) (c_eval c v)) <= s1 * (r * a) * Rabs (u - v)) /\
  s1 * (r * a) < r * a.
Proof.
  intros Hr Ha Hs c. split; [reflexivity|].
  assert (EV : forall u, c_eval c u = c_eval (arc_curve r a ce yaw pitch roll true) (s1 * u)).
  { intros u. unfold c_eval at 1. rewrite s2t_two_points by reflexivity.
    change (c_t0 c) with 0. change (c_t1 c) with (s2t (arc_curve r a ce yaw pitch roll true) s1).
    unfold arc_curve at 1. rewrite arc_new_s2t. unfold c_eval, arc_curve. rewrite arc_new_s2t.
    change (c_fun c) with (c_fun (new_curve (SArc r a ce (euler_zyx yaw pitch roll)) true 0 1 NDIV)).
    f_equal. ring. }
  split; [|assert (0 < r * a) by (apply Rmult_lt_0_compat; assumption); nra]. intros u v. rewrite !EV.
  eapply Rle_trans; [apply C33_chord_bound; lra|].
  replace (s1 * u - s1 * v) with (s1 * (u - v)) by ring.
  rewrite Rabs_mult, (Rabs_right a), (Rabs_right s1) by lra. lra.
Qed.

(** A clockwise arc (negative angle) reports a negative length. *)
Theorem C33_negative_angle r a ce yaw pitch roll : 0 < r -> a < 0 ->
  c_length (arc_curve r a ce yaw pitch roll true) < 0.
Proof. intros. rewrite C33_length. nra. Qed.
Example C33_negative_angle_example : c_length (arc_curve 3 (-1) RIGHT 0 0 0 true) < 0.
Proof. apply C33_negative_angle; lra. Qed.

Example C33_example :
  let c := from_2_point_center RIGHT UP ORIGIN (IZR 1) true in c_eval c 0 = RIGHT /\ c_eval c 1 = UP.
Proof.
  apply C33_two_point_center.
  - rewrite !vsub_0_r. transitivity 1; [|symmetry]; (apply norm_eq; [lra|vec_simpl; ring]).
  - intros E. vec_simpl. injection E. lra.
Qed.
Example C33_curvature_example :
  let c := from_2_point_curvature RIGHT UP (-1) OUT (IZR 0) true in c_eval c 0 = RIGHT /\ c_eval c 1 = UP.
Proof.
  destruct (C33_two_point_curvature RIGHT UP (-1) OUT 0 true) as (A & B & _); auto.
  - intros E. injection E. lra.
  - intros E. vec_simpl. injection E. lra.
  - lra.
  - replace (Rabs (-1)) with 1 by (rewrite Rabs_left; lra).
    unfold norm. vec_simpl. assert (sqrt ((0 - 1) * (0 - 1) + (1 - 0) * (1 - 0) + (0 - 0) * (0 - 0)) < 2); [|lra].
    rewrite <- (sqrt_square 2) by lra. apply sqrt_lt_1; lra.
Qed.

(** ** C34 *)
Definition similarity (k : R) (A : mat) (t : vec) (p : vec) : vec := vadd (smul k (mapp A p)) t.

Theorem C34_line k A t p0 p1 act : exists c',
  c_transform (similarity k A t) (line_curve p0 p1 act) = Some c' /\
  forall s, c_eval c' s = similarity k A t (c_eval (line_curve p0 p1 act) s).
Proof.
  unfold c_transform. replace (c_shape (line_curve p0 p1 act)) with (SLine p0 p1)
    by (unfold line_curve, new_curve; destruct act; reflexivity).
  replace (c_act (line_curve p0 p1 act)) with act
    by (unfold line_curve, new_curve; destruct act; reflexivity).
  eexists. split; [reflexivity|]. intros s.
  assert (EV : forall q0 q1, c_eval (line_curve q0 q1 act) s = vadd (smul (1 - s) q0) (smul s q1)).
  { intros q0 q1. unfold c_eval. replace (c_fun (line_curve q0 q1 act)) with (shape_fun (SLine q0 q1))
      by (unfold line_curve, new_curve; destruct act; reflexivity).
    replace (s2t (line_curve q0 q1 act) s) with s; [reflexivity|].
    unfold line_curve, new_curve. destruct act; [|symmetry; apply s2t_default; reflexivity].
    rewrite s2t_two_points by reflexivity. simpl. ring. }
  unfold line_transform. rewrite !EV. unfold similarity. vec_ring.
Qed.

Lemma smul_nz k v : k <> 0 -> v <> ORIGIN -> smul k v <> ORIGIN.
Proof.
  intros Hk Hv E. apply Hv. rewrite <- (smul_1 v), <- (Rinv_l k Hk), <- smul_smul, E. apply smul_ORIGIN.
Qed.

Lemma rot_nz A v : orthogonal A -> v <> ORIGIN -> mapp A v <> ORIGIN.
Proof.
  intros HA Hv E. apply Hv. rewrite <- (orthogonal_inv_l A v HA), E. apply mapp_ORIGIN.
Qed.

Lemma unit_nz v : dot v v = 1 -> v <> ORIGIN.
Proof. intros H ->. vec_simpl. lra. Qed.

(** Transforming an untrimmed arc by a similarity: the image at every parameter. *)
Theorem C34_arc k A t r a ce yaw pitch roll act : 0 < k -> rotation A -> 0 < r -> exists c',
  c_transform (similarity k A t) (arc_curve r a ce yaw pitch roll act) = Some c' /\
  forall s, c_eval c' s = similarity k A t (c_eval (arc_curve r a ce yaw pitch roll act) s).
Proof.
  intros Hk HA Hr. set (m := euler_zyx yaw pitch roll).
  assert (HM : rotation m) by apply rotation_euler.
  unfold c_transform, arc_curve. fold m. rewrite arc_new_shape.
  replace (c_act (new_curve (SArc r a ce m) act 0 1 NDIV)) with act
    by (unfold new_curve; destruct act; reflexivity).
  eexists. split; [reflexivity|]. intros s.
  destruct (cols_dot m (proj1 HM)) as (X & Y & XY & XZ & YZ & Z).
  pose proof (cross_cols m HM) as CC.
  unfold arc_transform. rewrite !arc_new_eval, Rmult_0_r, cos_0, sin_0.
  replace (arc_axis m) with (col3 m) by (unfold arc_axis; vec_ring).
  set (x := col1 m) in *. set (y := col2 m) in *. set (z := col3 m) in *. clearbody x y z m.
  replace (vsub (similarity k A t (vadd ce z)) (similarity k A t ce)) with (smul k (mapp A z))
    by (unfold similarity; clear; vec_ring).
  rewrite normalize_scale by solve [exact Hk | apply rot_nz; [apply HA|apply unit_nz, Z]].
  rewrite normalize_unit by (rewrite orthogonal_dot by apply HA; exact Z).
  replace (vadd (smul r (vadd (smul 1 x) (smul 0 y))) ce) with (vadd (smul r x) ce) by vec_ring.
  assert (D : vsub (similarity k A t (vadd (smul r x) ce)) (similarity k A t ce) = smul (k * r) (mapp A x))
    by (unfold similarity; clear; vec_ring).
  rewrite C33_point_center_angle.
  - rewrite D, mapp_smul, mapp_rodrigues, orthogonal_dot, (dot_comm z), XZ by apply HA.
    rewrite <- rotation_cross, CC by exact HA. unfold similarity. clear. vec_ring.
  - intros E. rewrite E, vsub_diag in D. symmetry in D. revert D.
    apply smul_nz; [nra|]. apply rot_nz; [apply HA|apply unit_nz, X].
  - rewrite orthogonal_dot by apply HA. exact Z.
  - rewrite D, dot_smul_r, orthogonal_dot, (dot_comm z), XZ by apply HA. ring.
Qed.

(** The transforms of the library (base_classes.py) are such similarities. *)
Corollary C34_transform_data (T : transform) r a ce yaw pitch roll act :
  0 < t_scale T -> rotation (t_orient T) -> 0 < r -> exists c',
  c_transform (fun p => apply_transform p T) (arc_curve r a ce yaw pitch roll act) = Some c' /\
  forall s, c_eval c' s = apply_transform (c_eval (arc_curve r a ce yaw pitch roll act) s) T.
Proof.
  intros H1 H2 H3.
  destruct (C34_arc (t_scale T) (t_orient T) (t_center T) r a ce yaw pitch roll act H1 H2 H3) as (c' & E & F).
  exists c'. split.
  - rewrite <- E. unfold c_transform. destruct (c_shape _); try reflexivity;
      unfold line_transform, arc_transform; rewrite !apply_transform_eq; reflexivity.
  - intros s. rewrite F, apply_transform_eq. reflexivity.
Qed.
Example C34_transform_data_example : exists c',
  c_transform (fun p => apply_transform p (mkT UP (rotz 1) 2)) (arc_curve 3 1 RIGHT 0 0 0 true) = Some c' /\
  forall s, c_eval c' s = apply_transform (c_eval (arc_curve 3 1 RIGHT 0 0 0 true) s) (mkT UP (rotz 1) 2).
Proof. apply C34_transform_data; cbn; try lra. apply rotation_rotz. Qed.

Corollary C34_gear_transform (T : gtransform) r a ce yaw pitch roll act :
  0 < g_scale T -> rotation (g_orient T) -> 0 < r -> exists c',
  c_transform (fun p => apply_gear_transform p T) (arc_curve r a ce yaw pitch roll act) = Some c' /\
  forall s, c_eval c' s = apply_gear_transform (c_eval (arc_curve r a ce yaw pitch roll act) s) T.
Proof.
  intros H1 H2 H3.
  assert (EQ : forall p, apply_gear_transform p T =
    similarity (g_scale T) (mmul (g_orient T) (rotz (g_angle T))) (g_center T) p).
  { intros p. rewrite apply_gear_transform_eq. unfold similarity. rewrite ?mapp_mmul. reflexivity. }
  destruct (C34_arc (g_scale T) (mmul (g_orient T) (rotz (g_angle T))) (g_center T) r a ce yaw pitch roll act H1
    (rotation_mmul _ _ H2 (rotation_rotz _)) H3) as (c' & E & F).
  exists c'. split.
  - rewrite <- E. unfold c_transform. destruct (c_shape _); try reflexivity;
      unfold line_transform, arc_transform; rewrite !EQ; reflexivity.
  - intros s. rewrite F, EQ. reflexivity.
Qed.
Example C34_gear_transform_example : exists c',
  c_transform (fun p => apply_gear_transform p (mkG UP (rotz 1) 2 1)) (arc_curve 3 1 RIGHT 0 0 0 true) = Some c' /\
  forall s, c_eval c' s = apply_gear_transform (c_eval (arc_curve 3 1 RIGHT 0 0 0 true) s) (mkG UP (rotz 1) 2 1).
Proof. apply C34_gear_transform; cbn; try lra. apply rotation_rotz. Qed.

(** The trim of a line is lost: its end is the image of the end of the untrimmed line. *)
Theorem C34_trimmed_line k A t p0 p1 s1 : exists c',
  c_transform (similarity k A t) (set_end_on (line_curve p0 p1 true) s1) = Some c' /\
  c_eval c' 1 = similarity k A t (c_eval (line_curve p0 p1 true) 1).
Proof.
  destruct (C34_line k A t p0 p1 true) as (c' & E & F). exists c'. split; [|apply F].
  rewrite <- E. reflexivity.
Qed.
Theorem C34_trimmed_line_refuted : exists c',
  c_transform (similarity 1 UNIT3X3 ORIGIN) (set_end_on (line_curve ORIGIN RIGHT true) (1 / 2)) = Some c' /\
  c_eval c' 1 <> similarity 1 UNIT3X3 ORIGIN (c_eval (set_end_on (line_curve ORIGIN RIGHT true) (1 / 2)) 1).
Proof.
  destruct (C34_trimmed_line 1 UNIT3X3 ORIGIN ORIGIN RIGHT (1 / 2)) as (c' & E & F).
  exists c'. split; [exact E|]. rewrite F. unfold similarity. rewrite !mapp_I, !smul_1, !vadd_0_r.
  rewrite !fresh_end by (try apply update_fresh; try apply (new_fresh (SLine ORIGIN RIGHT)); try (change (2 <= 21)%nat; lia)).
  change (c_t1 (line_curve ORIGIN RIGHT true)) with 1.
  change (c_t1 (set_end_on (line_curve ORIGIN RIGHT true) (1 / 2))) with (s2t (line_curve ORIGIN RIGHT true) (1 / 2)).
  rewrite s2t_two_points by reflexivity. change (c_t0 (line_curve ORIGIN RIGHT true)) with 0.
  change (c_t1 (line_curve ORIGIN RIGHT true)) with 1.
  unfold c_fun. simpl. intros H. injection H. vec_simpl. lra.
Qed.

(** The trim of an arc is lost at its end as well: the transformed arc has the full angle, counted from
    the trimmed start. *)
Theorem C34_trimmed_arc_refuted : exists c c',
  c = set_end_on (arc_curve 1 PI ORIGIN 0 0 0 true) (1 / 2) /\
  c_transform (similarity 1 UNIT3X3 ORIGIN) c = Some c' /\
  c_eval c 1 = UP /\ c_eval c' 1 = LEFT.
Proof.
  set (c0 := arc_curve 1 PI ORIGIN 0 0 0 true).
  destruct (C34_arc 1 UNIT3X3 ORIGIN 1 PI ORIGIN 0 0 0 true ltac:(lra) rotation_I ltac:(lra)) as (c' & E & F).
  exists (set_end_on c0 (1 / 2)), c'. split; [reflexivity|].
  assert (ST : c_eval (set_end_on c0 (1 / 2)) 0 = c_eval c0 0).
  { rewrite !fresh_start by (try apply update_fresh; try apply (new_fresh (SArc _ _ _ _)); try (change (2 <= 21)%nat; lia)).
    reflexivity. }
  split; [|split].
  - rewrite <- E. unfold c_transform. rewrite ST. reflexivity.
  - rewrite fresh_end by (try apply update_fresh; try (change (2 <= 21)%nat; lia)).
    change (c_t1 (set_end_on c0 (1 / 2))) with (s2t c0 (1 / 2)).
    change (c_fun (set_end_on c0 (1 / 2))) with (shape_fun (SArc 1 PI ORIGIN (euler_zyx 0 0 0))).
    unfold c0, arc_curve. rewrite arc_new_s2t.
    rewrite arc_shape_eval. replace (PI * (1 / 2)) with (PI / 2) by field.
    rewrite cos_PI2, sin_PI2. apply vec_eq; vec_simpl; rewrite cos_0, sin_0; ring.
  - rewrite F. unfold arc_curve. rewrite arc_new_eval. unfold similarity. rewrite mapp_I, smul_1, vadd_0_r, Rmult_1_r.
    rewrite cos_PI, sin_PI. apply vec_eq; vec_simpl; rewrite cos_0, sin_0; ring.
Qed.

(** Reflections are out of scope of [ArcCurve.transform]: the image runs the wrong way round. *)
Theorem C34_reflection_refuted :
  let f := mirror_func UP ORIGIN in
  exists c', c_transform f (arc_curve 1 (PI / 2) ORIGIN 0 0 0 true) = Some c' /\
    f (c_eval (arc_curve 1 (PI / 2) ORIGIN 0 0 0 true) 1) = DOWN /\ c_eval c' 1 = UP.
Proof.
  intros f.
  assert (FE : forall p, f p = V (vx p) (- vy p) (vz p)).
  { intros p. unfold f, mirror_func. destruct p. apply vec_eq; vec_simpl; ring. }
  eexists. split; [reflexivity|]. split.
  - rewrite FE. unfold arc_curve. rewrite arc_new_eval, Rmult_1_r, cos_PI2, sin_PI2.
    apply vec_eq; vec_simpl; rewrite cos_0, sin_0; ring.
  - unfold arc_transform.
    replace (f (c_eval (arc_curve 1 (PI / 2) ORIGIN 0 0 0 true) 0)) with RIGHT.
    2: { rewrite FE. unfold arc_curve. rewrite arc_new_eval, Rmult_0_r, cos_0, sin_0.
         apply vec_eq; vec_simpl; rewrite cos_0, sin_0; ring. }
    replace (f ORIGIN) with ORIGIN by (rewrite FE; apply vec_eq; vec_simpl; ring).
    replace (f (vadd ORIGIN (arc_axis (euler_zyx 0 0 0)))) with OUT.
    2: { rewrite FE. unfold arc_axis. apply vec_eq; vec_simpl; rewrite cos_0, sin_0; ring. }
    rewrite vsub_0_r, normalize_unit by (vec_simpl; ring).
    rewrite C33_point_center_angle.
    + rewrite Rmult_1_r, rodrigues_OUT. apply vec_eq; vec_simpl; rewrite ?cos_PI2, ?sin_PI2; ring.
    + intros H. injection H. lra.
    + vec_simpl. ring.
    + vec_simpl. ring.
Qed.

Example C34_example : exists c', c_transform (similarity 2 (rotz 1) UP) (arc_curve 3 1 RIGHT 0 0 0 true) = Some c' /\
  forall s, c_eval c' s = similarity 2 (rotz 1) UP (c_eval (arc_curve 3 1 RIGHT 0 0 0 true) s).
Proof. apply C34_arc; try lra. apply rotation_rotz. Qed.

(** ** C35 *)
Lemma mirror_affine n ce p q : dot n n = 1 ->
  dot (vsub (mirror_func n ce p) (mirror_func n ce q)) (vsub (mirror_func n ce p) (mirror_func n ce q)) =
  dot (vsub p q) (vsub p q).
Proof.
  intros N. set (w := vsub p q).
  replace (vsub (mirror_func n ce p) (mirror_func n ce q)) with (vsub w (smul (2 * dot w n) n))
    by (unfold w, mirror_func; vec_ring).
  transitivity (dot w w - 4 * dot w n * dot w n + 4 * dot w n * dot w n * dot n n).
  - clearbody w. clear. vec_ring.
  - rewrite N. ring.
Qed.

Theorem C35_mirror_involution n ce p : norm n = 1 -> mirror_func n ce (mirror_func n ce p) = p.
Proof.
  intros H. assert (N : dot n n = 1) by (rewrite <- norm_sqr, H; ring).
  transitivity (vadd p (smul (4 * dot (vsub p ce) n * (dot n n - 1)) n)).
  - unfold mirror_func. clear. vec_ring.
  - rewrite N. vec_ring.
Qed.
Example C35_mirror_involution_example :
  mirror_func (V (3/5) (4/5) 0) RIGHT (mirror_func (V (3/5) (4/5) 0) RIGHT (V 7 8 9)) = V 7 8 9.
Proof. apply C35_mirror_involution. apply norm_eq; [lra|vec_simpl; field]. Qed.

Theorem C35_mirror_isometry n ce p q : norm n = 1 ->
  norm (vsub (mirror_func n ce p) (mirror_func n ce q)) = norm (vsub p q).
Proof.
  intros H. assert (N : dot n n = 1) by (rewrite <- norm_sqr, H; ring).
  unfold norm at 1. rewrite mirror_affine by exact N. reflexivity.
Qed.
Example C35_mirror_isometry_example :
  norm (vsub (mirror_func (V (3/5) (4/5) 0) RIGHT (V 7 8 9)) (mirror_func (V (3/5) (4/5) 0) RIGHT (V 1 2 3))) =
  norm (vsub (V 7 8 9) (V 1 2 3)).
Proof. apply C35_mirror_isometry. apply norm_eq; [lra|vec_simpl; field]. Qed.

(** A point is fixed exactly if it lies in the plane, and the segment to its image is normal to the
    plane with its midpoint in the plane. *)
Theorem C35_mirror_fixes n ce p : norm n = 1 -> mirror_func n ce p = p <-> dot (vsub p ce) n = 0.
Proof.
  intros H. assert (N : dot n n = 1) by (rewrite <- norm_sqr, H; ring).
  assert (E : vsub p (mirror_func n ce p) = smul (2 * dot (vsub p ce) n) n).
  { unfold mirror_func. vec_ring. }
  split; intros K.
  - rewrite K, vsub_diag in E. apply (f_equal (fun v => dot v n)) in E.
    rewrite dot_smul_l, N in E. replace (dot ORIGIN n) with 0 in E by vec_ring. lra.
  - unfold mirror_func. cbv zeta. rewrite K, Rmult_0_r, smul_0, vsub_0_r. apply vadd_vsub.
Qed.
Example C35_mirror_fixes_example : mirror_func (V (3/5) (4/5) 0) RIGHT (V (-3) 3 9) = V (-3) 3 9.
Proof. apply C35_mirror_fixes; [apply norm_eq; [lra|vec_simpl; field]|vec_simpl; field]. Qed.
Theorem C35_mirror_midpoint n ce p : norm n = 1 ->
  dot (vsub (smul (/ 2) (vadd p (mirror_func n ce p))) ce) n = 0 /\
  cross (vsub p (mirror_func n ce p)) n = ORIGIN.
Proof.
  intros H. assert (N : dot n n = 1) by (rewrite <- norm_sqr, H; ring). split.
  - transitivity (dot (vsub p ce) n * (1 - dot n n)).
    + unfold mirror_func. clear. destruct n, ce, p. vec_simpl. field.
    + rewrite N. ring.
  - unfold mirror_func. vec_ring.
Qed.
Example C35_mirror_midpoint_example :
  dot (vsub (smul (/ 2) (vadd (V 7 8 9) (mirror_func (V (3/5) (4/5) 0) RIGHT (V 7 8 9)))) RIGHT) (V (3/5) (4/5) 0) = 0.
Proof. apply C35_mirror_midpoint. apply norm_eq; [lra|vec_simpl; field]. Qed.

(** Rotations about one axis add up. *)
Lemma rodrigues_plus u a b p : dot u u = 1 ->
  mapp (rodrigues u a) (mapp (rodrigues u b) p) = mapp (rodrigues u (a + b)) p.
Proof.
  intros U. rewrite !mapp_rodrigues.
  assert (D : dot u (vadd (smul (cos b) p) (vadd (smul (sin b) (cross u p)) (smul ((1 - cos b) * dot u p) u))) = dot u p).
  { transitivity (cos b * dot u p + (1 - cos b) * dot u p * dot u u); [clear; vec_ring|]. rewrite U. ring. }
  assert (X : cross u (vadd (smul (cos b) p) (vadd (smul (sin b) (cross u p)) (smul ((1 - cos b) * dot u p) u)))
    = vadd (smul (cos b) (cross u p)) (smul (sin b) (vsub (smul (dot u p) u) p))).
  { transitivity (vadd (smul (cos b) (cross u p)) (smul (sin b) (vsub (smul (dot u p) u) (smul (dot u u) p))));
      [clear; vec_ring|]. rewrite U, smul_1. reflexivity. }
  rewrite D, X, cos_plus, sin_plus. generalize (cross u p), (dot u p). clear. vec_ring.
Qed.

Theorem C35_rotate_composes axis ce a b p : norm axis = 1 ->
  rotate_func axis a ce (rotate_func axis b ce p) = rotate_func axis (a + b) ce p.
Proof.
  intros H. assert (N : dot axis axis = 1) by (rewrite <- norm_sqr, H; ring).
  unfold rotate_func. rewrite vsub_vadd, !from_rotvec_axis, rodrigues_plus by assumption. reflexivity.
Qed.
Example C35_rotate_composes_example :
  rotate_func (V (3/5) (4/5) 0) 1 RIGHT (rotate_func (V (3/5) (4/5) 0) 2 RIGHT (V 7 8 9)) =
  rotate_func (V (3/5) (4/5) 0) (1 + 2) RIGHT (V 7 8 9).
Proof. apply C35_rotate_composes. apply norm_eq; [lra|vec_simpl; field]. Qed.

Theorem C35_rotate_isometry axis ce a p q : norm axis = 1 ->
  norm (vsub (rotate_func axis a ce p) (rotate_func axis a ce q)) = norm (vsub p q).
Proof.
  intros H. unfold rotate_func. rewrite !from_rotvec_axis by exact H.
  replace (vsub (vadd (mapp (rodrigues axis a) (vsub p ce)) ce) (vadd (mapp (rodrigues axis a) (vsub q ce)) ce))
    with (mapp (rodrigues axis a) (vsub p q)) by vec_ring.
  apply orthogonal_norm, rotation_rodrigues, H.
Qed.
Example C35_rotate_isometry_example :
  norm (vsub (rotate_func (V (3/5) (4/5) 0) 1 RIGHT (V 7 8 9)) (rotate_func (V (3/5) (4/5) 0) 1 RIGHT (V 1 2 3))) =
  norm (vsub (V 7 8 9) (V 1 2 3)).
Proof. apply C35_rotate_isometry. apply norm_eq; [lra|vec_simpl; field]. Qed.

Theorem C35_rotate_axis axis ce a k : norm axis = 1 ->
  rotate_func axis a ce (vadd ce (smul k axis)) = vadd ce (smul k axis).
Proof.
  intros H. unfold rotate_func. rewrite from_rotvec_axis by exact H.
  replace (vsub (vadd ce (smul k axis)) ce) with (smul k axis) by vec_ring.
  rewrite mapp_smul, rodrigues_axis by exact H. apply vadd_comm.
Qed.
Example C35_rotate_axis_example :
  rotate_func OUT 1 RIGHT (vadd RIGHT (smul 5 OUT)) = vadd RIGHT (smul 5 OUT).
Proof. apply C35_rotate_axis. apply norm_eq; [lra|vec_simpl; ring]. Qed.

Theorem C35_rotate_zero axis ce p : norm axis = 1 -> rotate_func axis 0 ce p = p.
Proof.
  intros H. unfold rotate_func. rewrite from_rotvec_axis, mapp_rodrigues, cos_0, sin_0 by exact H. vec_ring.
Qed.
Example C35_rotate_zero_example : rotate_func OUT 0 RIGHT (V 7 8 9) = V 7 8 9.
Proof. apply C35_rotate_zero. apply norm_eq; [lra|vec_simpl; ring]. Qed.

(** Rotation about the z axis turns by the angle. *)
Theorem C35_rotate_OUT ce a p :
  rotate_func OUT a ce p = vadd (mapp (rotz a) (vsub p ce)) ce.
Proof.
  unfold rotate_func. rewrite from_rotvec_axis, rodrigues_OUT; [reflexivity|].
  apply norm_eq; [lra|vec_simpl; ring].
Qed.

(** The mirrored / rotated curve starts and ends at the images of start and end, and every value is the
    image of a value of the original curve. *)
Theorem C35_curve_ends f c : c_act c = true ->
  c_eval (transformed_curve f c) 0 = f (c_eval c 0) /\ c_eval (transformed_curve f c) 1 = f (c_eval c 1).
Proof.
  intros A. unfold transformed_curve. rewrite A.
  rewrite fresh_start, fresh_end by (try apply new_fresh; try (change (2 <= 21)%nat; lia)).
  unfold c_fun. simpl. split; reflexivity.
Qed.

Theorem C35_curve_values f c s : c_act c = true -> 0 <= s <= 1 ->
  exists u, 0 <= u <= 1 /\ c_eval (transformed_curve f c) s = f (c_eval c u).
Proof.
  intros A Hs. unfold transformed_curve. rewrite A.
  destruct (sampled_range (fun t => f (c_eval c t)) s NDIV) as (u & U & E); [unfold NDIV; lia|exact Hs|].
  exists u. split; [exact U|exact E].
Qed.
Example C35_curve_values_example : exists u, 0 <= u <= 1 /\
  c_eval (transformed_curve (vadd UP) (line_curve RIGHT (V 1 2 0) true)) (1/3) =
  vadd UP (c_eval (line_curve RIGHT (V 1 2 0) true) u).
Proof. apply C35_curve_values; [reflexivity|lra]. Qed.

(** If the original runs with constant speed, as lines and arcs do, and the map scales all distances
    equally, the new curve is the pointwise image at the same parameter. *)
Lemma transformed_pointwise f c d k s : c_act c = true ->
  (forall p q, norm (vsub (f p) (f q)) = k * norm (vsub p q)) ->
  (forall u, norm (vsub (c_eval c (u + / 20)) (c_eval c u)) = d) ->
  0 <= s <= 1 -> c_eval (transformed_curve f c) s = f (c_eval c s).
Proof.
  intros A SC ST Hs. set (c2 := transformed_curve f c).
  assert (E2 : c2 = new_curve (SGen (fun t => f (c_eval c t))) true 0 1 NDIV)
    by (unfold c2, transformed_curve; rewrite A; reflexivity).
  clearbody c2. subst c2.
  unfold c_eval at 1.
  rewrite (s2t_uniform (fun t => f (c_eval c t)) _ s NDIV (k * d)); auto.
  - change (f (c_eval c (0 + (1 - 0) * s)) = f (c_eval c s)).
    replace (0 + (1 - 0) * s) with s by ring. reflexivity.
  - unfold NDIV. lia.
  - apply new_fresh.
  - discriminate.
  - discriminate.
  - intros i Hi. rewrite SC. f_equal. rewrite <- (ST (nth i (linspace 0 1 NDIV) 0)).
    simpl c_t0. simpl c_t1. rewrite !linspace_nth by lia.
    replace (0 + INR (S i) * ((1 - 0) / INR (NDIV - 1))) with (0 + INR i * ((1 - 0) / INR (NDIV - 1)) + / 20);
      [reflexivity|].
    replace (INR (NDIV - 1)) with 20 by (unfold NDIV; simpl; lra). rewrite S_INR. field.
Qed.

Lemma line_eval p0 p1 s : c_eval (line_curve p0 p1 true) s = vadd (smul (1 - s) p0) (smul s p1).
Proof.
  unfold c_eval. rewrite s2t_two_points by reflexivity.
  unfold c_fun. simpl. rewrite Rminus_0_r, Rplus_0_l, Rmult_1_l. reflexivity.
Qed.

Theorem C35_line_pointwise f k p0 p1 s :
  (forall p q, norm (vsub (f p) (f q)) = k * norm (vsub p q)) -> 0 <= s <= 1 ->
  c_eval (transformed_curve f (line_curve p0 p1 true)) s = f (c_eval (line_curve p0 p1 true) s).
Proof.
  intros SC Hs. apply transformed_pointwise with (d := / 20 * norm (vsub p1 p0)) (k := k); auto.
  intros u. rewrite !line_eval.
  replace (vsub _ _) with (smul (/ 20) (vsub p1 p0)).
  - rewrite norm_smul, Rabs_right by lra. reflexivity.
  - clear. vec_ring.
Qed.
Example C35_line_pointwise_example :
  c_eval (transformed_curve (smul 2) (line_curve RIGHT (V 1 2 0) true)) (1/3) =
  smul 2 (c_eval (line_curve RIGHT (V 1 2 0) true) (1/3)).
Proof.
  apply (C35_line_pointwise (smul 2) 2); [|lra]. intros p q.
  replace (vsub (smul 2 p) (smul 2 q)) with (smul 2 (vsub p q)) by vec_ring.
  rewrite norm_smul, Rabs_right by lra. reflexivity.
Qed.

Theorem C35_arc_pointwise f k r a ce yaw pitch roll s : 0 <= r ->
  (forall p q, norm (vsub (f p) (f q)) = k * norm (vsub p q)) -> 0 <= s <= 1 ->
  c_eval (transformed_curve f (arc_curve r a ce yaw pitch roll true)) s =
  f (c_eval (arc_curve r a ce yaw pitch roll true) s).
Proof.
  intros Hr SC Hs.
  apply transformed_pointwise with (d := 2 * r * Rabs (sin (a * / 20 / 2))) (k := k); auto.
  intros u. unfold arc_curve. rewrite !arc_new_eval.
  destruct (cols_dot (euler_zyx yaw pitch roll) ltac:(apply rotation_euler)) as (X & Y & XY & _).
  set (x := col1 (euler_zyx yaw pitch roll)) in *. set (y := col2 (euler_zyx yaw pitch roll)) in *.
  clearbody x y.
  assert (TR : forall p q w, vsub (vadd p w) (vadd q w) = vsub p q) by vec_ring. rewrite TR.
  rewrite chord_frame by assumption. do 3 f_equal. field.
Qed.
Example C35_arc_pointwise_example :
  c_eval (transformed_curve (smul 2) (arc_curve 3 1 RIGHT 0 0 0 true)) (1/3) =
  smul 2 (c_eval (arc_curve 3 1 RIGHT 0 0 0 true) (1/3)).
Proof.
  apply (C35_arc_pointwise (smul 2) 2); [lra| |lra]. intros p q.
  replace (vsub (smul 2 p) (smul 2 q)) with (smul 2 (vsub p q)) by vec_ring.
  rewrite norm_smul, Rabs_right by lra. reflexivity.
Qed.

(** In particular for mirrored and rotated lines and arcs. *)
Corollary C35_mirrored_arc r a ce yaw pitch roll n ce2 s : 0 <= r -> n <> ORIGIN -> 0 <= s <= 1 ->
  c_eval (mirrored_curve (arc_curve r a ce yaw pitch roll true) n ce2) s =
  mirror_func (normalize n) ce2 (c_eval (arc_curve r a ce yaw pitch roll true) s).
Proof.
  intros Hr Hn Hs. unfold mirrored_curve. apply C35_arc_pointwise with (k := 1); auto.
  intros p q. rewrite C35_mirror_isometry; [ring|]. apply C14_normalize, Hn.
Qed.
Example C35_mirrored_arc_example :
  c_eval (mirrored_curve (arc_curve 3 1 RIGHT 0 0 0 true) (V 1 2 0) UP) (1/3) =
  mirror_func (normalize (V 1 2 0)) UP (c_eval (arc_curve 3 1 RIGHT 0 0 0 true) (1/3)).
Proof. apply C35_mirrored_arc; try lra. intros E. injection E. lra. Qed.
Corollary C35_mirrored_line p0 p1 n ce2 s : n <> ORIGIN -> 0 <= s <= 1 ->
  c_eval (mirrored_curve (line_curve p0 p1 true) n ce2) s =
  mirror_func (normalize n) ce2 (c_eval (line_curve p0 p1 true) s).
Proof.
  intros Hn Hs. unfold mirrored_curve. apply C35_line_pointwise with (k := 1); auto.
  intros p q. rewrite C35_mirror_isometry; [ring|]. apply C14_normalize, Hn.
Qed.
Example C35_mirrored_line_example :
  c_eval (mirrored_curve (line_curve RIGHT (V 5 6 7) true) (V 1 2 0) UP) (1/3) =
  mirror_func (normalize (V 1 2 0)) UP (c_eval (line_curve RIGHT (V 5 6 7) true) (1/3)).
Proof. apply C35_mirrored_line; try lra. intros E. injection E. lra. Qed.
Corollary C35_rotated_arc r a ce yaw pitch roll angle axis ce2 s : 0 <= r -> axis <> ORIGIN -> 0 <= s <= 1 ->
  c_eval (rotated_curve (arc_curve r a ce yaw pitch roll true) angle axis ce2) s =
  rotate_func (normalize axis) angle ce2 (c_eval (arc_curve r a ce yaw pitch roll true) s).
Proof.
  intros Hr Hn Hs. unfold rotated_curve. apply C35_arc_pointwise with (k := 1); auto.
  intros p q. rewrite C35_rotate_isometry; [ring|]. apply C14_normalize, Hn.
Qed.
Example C35_rotated_arc_example :
  c_eval (rotated_curve (arc_curve 3 1 RIGHT 0 0 0 true) 2 (V 1 2 0) UP) (1/3) =
  rotate_func (normalize (V 1 2 0)) 2 UP (c_eval (arc_curve 3 1 RIGHT 0 0 0 true) (1/3)).
Proof. apply C35_rotated_arc; try lra. intros E. injection E. lra. Qed.

Example C35_example : c_eval (mirrored_curve (line_curve RIGHT (V 1 2 0) true) (V 0 3 0) ORIGIN) 1 = V 1 (-2) 0.
Proof.
  unfold mirrored_curve. destruct (C35_curve_ends (mirror_func (normalize (V 0 3 0)) ORIGIN) (line_curve RIGHT (V 1 2 0) true) eq_refl) as [_ ->].
  rewrite line_eval. unfold mirror_func, normalize.
  rewrite (norm_eq (V 0 3 0) 3) by (try lra; vec_simpl; ring).
  apply vec_eq; vec_simpl; field.
Qed.
