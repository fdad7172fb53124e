(** Properties C41, C42, C43, C49: cone angles, centre distances and backlash. *)
From Coq Require Import Nsatz Reals Lra Psatz Lia ZArith List Bool.
From Verif Require Import Num Vec Transform TransformProps Params ParamsProps Coords CoordsProps Gen GenProps
  Interp Curve CurveLem CurveProps ArcLem ArcProps Chain GearMath Tooth Wrapper GearLem MeshAngleProps MeshLem MeshConj MeshProps.
Import ListNotations.
Open Scope R_scope.

(** ** C41 *)
Lemma cone_arg_right a b : cone_sqrt_arg a b (PI / 2) = b * b.
Proof. unfold cone_sqrt_arg. rewrite cos_PI2. field. Qed.

(** Perpendicular axes: half cone angles positive, complementary, sines in the ratio of the tooth
    numbers (the pitch cones roll on each other without slipping). *)
Theorem C41_perpendicular a b : 0 < a -> 0 < b ->
  exists g1 g2, cone_angle_from_teeth a b (PI / 2) = Ok (2 * g1, 2 * g2) /\
    0 < g1 /\ 0 < g2 /\ g1 + g2 = PI / 2 /\ sin g1 * b = sin g2 * a.
Proof.
  intros Ha Hb. unfold cone_angle_from_teeth. rewrite cone_arg_right.
  destruct (Rlt_dec (b * b) 0) as [L|_]; [nra|].
  rewrite sqrt_square by lra. set (g2 := atan (b / a)).
  exists (PI / 2 - g2), g2.
  assert (0 < b / a) by (apply Rdiv_lt_0_compat; lra).
  assert (B : 0 < g2 < PI / 2).
  { unfold g2. split; [rewrite <- atan_0; apply atan_increasing; lra|apply atan_bound]. }
  split; [f_equal; f_equal; [field|ring]|]. split; [lra|]. split; [lra|]. split; [lra|].
  rewrite sin_shift.
  assert (T : tan g2 = b / a) by apply tan_atan.
  assert (0 < cos g2) by (apply cos_gt_0; lra).
  assert (S : sin g2 = b / a * cos g2) by (rewrite <- T; unfold tan; field; lra).
  rewrite S. field. lra.
Qed.

(** At 60 degrees, equal tooth numbers give unequal cones. *)
Theorem C41_other_angle_refuted : exists g1 g2,
  cone_angle_from_teeth 1 1 (PI / 3) = Ok (2 * g1, 2 * g2) /\
  0 < g1 < PI / 2 /\ 0 < g2 < PI / 2 /\ sin g1 <> sin g2.
Proof.
  pose proof PI_RGT_0 as PP.
  unfold cone_angle_from_teeth, cone_sqrt_arg. rewrite cos_PI3.
  replace ((- (1 * 1) - 2 * 1 * 1 * (1 / 2) - 1 * 1 * (1 / 2)) / (1 / 2 - 1)) with 5 by field.
  destruct (Rlt_dec 5 0); [lra|]. set (g2 := atan (sqrt 5 / 1)).
  exists (PI - PI / 3 - g2), g2.
  assert (T : tan g2 = sqrt 5) by (unfold g2; rewrite tan_atan; field).
  assert (Q : sqrt 3 < sqrt 5) by (apply sqrt_lt_1; lra).
  assert (B : PI / 3 < g2 < PI / 2).
  { split; [|apply atan_bound]. unfold g2.
    rewrite <- (atan_tan (PI / 3)) by lra. apply atan_increasing. rewrite tan_PI3. lra. }
  split; [f_equal; f_equal; ring|]. split; [lra|]. split; [lra|].
  intros E. assert (PI - PI / 3 - g2 < g2) by lra.
  assert (sin (PI - PI / 3 - g2) < sin g2) by (apply sin_increasing_1; lra). lra.
Qed.

(** At 120 degrees the square root's argument is negative. *)
Theorem C41_obtuse_refuted a b : 0 < a -> 0 < b -> b * b < 2 * a * b / 2 + a * a / 2 ->
  cone_angle_from_teeth a b (2 * (PI / 3)) = Err ValueError.
Proof.
  intros Ha Hb H. unfold cone_angle_from_teeth, cone_sqrt_arg. rewrite cos_2PI3.
  destruct (Rlt_dec _ 0) as [L|L]; [reflexivity|]. exfalso. apply L.
  replace ((- (b * b) - 2 * a * b * (-1 / 2) - a * a * (-1 / 2)) / (-1 / 2 - 1))
    with (- ((2 * a * b / 2 + a * a / 2 - b * b) * (2 / 3))) by field. nra.
Qed.

Example C41_example : exists g1 g2, cone_angle_from_teeth 20 40 (PI / 2) = Ok (2 * g1, 2 * g2) /\
  0 < g1 /\ 0 < g2 /\ g1 + g2 = PI / 2 /\ sin g1 * 40 = sin g2 * 20.
Proof. apply C41_perpendicular; lra. Qed.
Example C41_obtuse_example : cone_angle_from_teeth 20 20 (2 * (PI / 3)) = Err ValueError.
Proof. apply C41_obtuse_refuted; lra. Qed.

(** ** C42 *)

(** The solver's value for the tooth exists and is the angle of the involute at the pitch circle. *)
Lemma involute0_fun rp alpha : c_fun (involute_curve0 rp alpha)
  = fun t => involute_circle t (rp * cos alpha) 0 ORIGIN 0.
Proof. reflexivity. Qed.

Lemma pitch_circle_eval rp s : c_eval (pitch_circle rp) s = circle_pt rp (2 * PI * s).
Proof.
  unfold pitch_circle, arc_curve. rewrite arc_new_eval. unfold circle_pt.
  apply vec_eq; vec_simpl; rewrite ?cos_0, ?sin_0; ring.
Qed.
Lemma circle_pt_norm r a : 0 <= r -> norm (circle_pt r a) = r.
Proof.
  intros H. apply norm_eq; [exact H|]. unfold circle_pt. vec_simpl. pose proof (sc1 a). nsatz.
Qed.

Lemma involute_pos_norm t r : 0 <= r -> norm (involute_circle t r 0 ORIGIN 0) = r * sqrt (1 + t * t).
Proof. intros. apply C23_radius. exact H. Qed.

Lemma s2_exact_tan rp alpha s2 : 0 < rp -> 0 <= alpha < PI / 2 -> s2_exact rp alpha s2 ->
  s2t (involute_curve0 rp alpha) s2 = tan alpha.
Proof.
  intros Hr Ha [[s E] P]. assert (C : 0 < cos alpha) by (apply cos_gt_0; lra).
  set (t := s2t _ _) in *.
  assert (N : norm (involute_circle t (rp * cos alpha) 0 ORIGIN 0) = rp).
  { change (involute_circle t (rp * cos alpha) 0 ORIGIN 0) with (c_eval (involute_curve0 rp alpha) s2).
    rewrite E, pitch_circle_eval. apply circle_pt_norm. lra. }
  rewrite involute_pos_norm in N by nra.
  assert (Q : cos alpha * sqrt (1 + t * t) = 1) by nra.
  assert (Q2 : cos alpha * cos alpha * (1 + t * t) = 1).
  { replace (1 + t * t) with (sqrt (1 + t * t) * sqrt (1 + t * t)) by (apply sqrt_sqrt; nra). nra. }
  assert (Ht : t * t = tan alpha * tan alpha).
  { unfold tan. pose proof (sc1 alpha) as SC.
    assert (W : t * t * (cos alpha * cos alpha) = sin alpha * sin alpha) by nra.
    apply (Rmult_eq_reg_r (cos alpha * cos alpha)); [|nra]. rewrite W. field. lra. }
  assert (0 <= tan alpha).
  { unfold tan. apply Rmult_le_pos; [apply sin_ge_0; lra|]. left. apply Rinv_0_lt_compat. exact C. }
  nra.
Qed.

(** The involute at pressure angle [alpha], as a polar point on the pitch circle. *)
Lemma involute_on_pitch rp alpha b : cos alpha <> 0 ->
  involute_circle (tan alpha) (rp * cos alpha) b ORIGIN 0 = circle_pt rp (inv alpha + b).
Proof.
  intros C. unfold involute_circle, circle_pt, inv.
  replace (tan alpha - alpha + b) with ((tan alpha + b) - alpha) by ring.
  set (u := tan alpha + b). rewrite cos_minus, sin_minus.
  apply vec_eq; vec_simpl; unfold tan; field; assumption.
Qed.

Theorem C42_tooth_base_angle rp alpha pia s2 : 0 < rp -> 0 <= alpha < PI / 2 -> inv alpha <= PI ->
  s2_exact rp alpha s2 -> base_angle rp alpha pia s2 = - (pia + (tan alpha - alpha)).
Proof.
  intros Hr Ha HI E. unfold base_angle. do 2 f_equal. unfold involute_angle_0.
  change (c_eval (involute_curve0 rp alpha) s2)
    with (involute_circle (s2t (involute_curve0 rp alpha) s2) (rp * cos alpha) 0 ORIGIN 0).
  rewrite (s2_exact_tan _ _ _ Hr Ha E).
  assert (C : 0 < cos alpha) by (apply cos_gt_0; lra).
  rewrite involute_on_pitch, Rplus_0_r by lra.
  assert (I0 : 0 <= inv alpha).
  { rewrite <- inv_0. apply inv_mono; lra. }
  fold (inv alpha). set (v := inv alpha) in *. pose proof PI_RGT_0.
  unfold angle_between, circle_pt.
  assert (S : 0 <= sin v) by (apply sin_ge_0; lra).
  replace (norm (cross RIGHT (V (rp * cos v) (rp * sin v) 0))) with (rp * sin v).
  2: { symmetry. apply norm_eq; [nra|]. vec_simpl. ring. }
  replace (dot RIGHT (V (rp * cos v) (rp * sin v) 0)) with (rp * cos v) by (vec_simpl; ring).
  apply arctan2_polar; lra.
Qed.

(** The finished flank crosses the pitch circle at the requested angle. *)
Theorem C42_flank_crosses_pitch_circle rp alpha pia s2 : 0 < rp -> 0 <= alpha < PI / 2 ->
  inv alpha <= PI -> s2_exact rp alpha s2 ->
  c_eval (involute_curve1 rp alpha pia s2) s2 = circle_pt rp (- pia).
Proof.
  intros Hr Ha HI E.
  change (c_eval (involute_curve1 rp alpha pia s2) s2)
    with (involute_circle (s2t (involute_curve0 rp alpha) s2) (rp * cos alpha)
            (base_angle rp alpha pia s2) ORIGIN 0).
  rewrite (s2_exact_tan _ _ _ Hr Ha E), (C42_tooth_base_angle _ _ _ _ Hr Ha HI E).
  assert (C : 0 < cos alpha) by (apply cos_gt_0; lra).
  rewrite involute_on_pitch by lra. f_equal. unfold inv. ring.
Qed.

(** There is such a solver value. *)
Lemma involute0_incr rp alpha : 0 < rp -> 0 <= alpha < PI / 2 -> incr (c_ss (involute_curve0 rp alpha)).
Proof.
  intros Hr Ha. assert (C : 0 < cos alpha) by (apply cos_gt_0; lra).
  unfold involute_curve0. apply C28_distinct_samples_strict; [unfold NDIV; lia|].
  intros i Hi E. apply (f_equal norm) in E.
  rewrite !involute_pos_norm in E by nra.
  assert (RC : 0 < rp * cos alpha) by (apply Rmult_lt_0_compat; lra).
  apply Rmult_eq_reg_l in E; [|lra].
  rewrite S_INR in E. set (x := INR i) in *. assert (0 <= x) by apply pos_INR.
  change (INR (NDIV - 1)) with (INR 20) in E. replace (INR 20) with 20 in E by (simpl; ring).
  apply sqrt_inj in E; [|nra|nra]. unfold Rdiv in E. nra.
Qed.

Theorem C42_solver_value_exists rp alpha : 0 < rp -> 0 <= alpha < PI / 2 ->
  exists s2, s2_exact rp alpha s2.
Proof.
  intros Hr Ha. assert (C : 0 < cos alpha) by (apply cos_gt_0; lra).
  assert (T0 : 0 <= tan alpha).
  { unfold tan. apply Rmult_le_pos; [apply sin_ge_0; lra|]. left. apply Rinv_0_lt_compat. exact C. }
  set (c := involute_curve0 rp alpha).
  exists (t2s c (tan alpha)).
  assert (E : s2t c (t2s c (tan alpha)) = tan alpha).
  { apply C28_s2t_inverts_t2s; [apply new_fresh|change (2 <= 21)%nat; lia|apply involute0_incr; assumption|].
    change (0 < 2). lra. }
  split; [|fold c; rewrite E; exact T0].
  exists (inv alpha / (2 * PI)). rewrite pitch_circle_eval. unfold c_eval. fold c. rewrite E.
  unfold c at 1. rewrite involute0_fun, involute_on_pitch by lra. f_equal.
  pose proof PI_RGT_0. field. lra.
Qed.

(** The tooth solver of a gear returned the exact value. *)
Definition tooth_solved (g : igear) (s2 : R) : Prop :=
  s2_exact (ip_teeth (ig_in g) / 2) (ip_alpha (ig_in g)) s2.

(** Half of the tooth's angle on the base circle, times the tooth number. *)
Lemma base_arc g n s2 : cylindrical g n -> inv (ip_alpha (ig_in g)) <= PI -> tooth_solved g s2 ->
  - ig_angle_base g s2 * IZR n =
  PI / 2 + 2 * ip_shift (ig_in g) * tan (ip_alpha (ig_in g)) - 2 * ip_backlash (ig_in g)
  - ip_crown (ig_in g) / 500 + IZR n * inv (ip_alpha (ig_in g)).
Proof.
  intros H HI HS. assert (N : 0 < IZR n) by (apply IZR_lt; apply (cy_n _ _ H)).
  unfold ig_angle_base, ig_pia. rewrite (cy_core _ _ H).
  cbn [with_trf calc_params k_rp k_alpha k_tooth_angle]. unfold tooth_solved in HS.
  rewrite (cy_teeth _ _ H) in *.
  rewrite C42_tooth_base_angle; [|lra|apply (cy_alpha _ _ H)|exact HI|exact HS].
  unfold crowning, inv. set (al := ip_alpha _). set (ta := tan al).
  replace (0 * 2 / ip_height (ig_in g) - 1) with (-1) by (unfold Rdiv; ring). field. lra.
Qed.

Section ext_pair.
  Variables (g o : igear) (n1 n2 : Z) (sg so : R).
  Hypotheses (H1 : cylindrical g n1) (H2 : cylindrical o n2)
    (I1 : ip_inside (ig_in g) = false) (I2 : ip_inside (ig_in o) = false)
    (EM : ip_module (ig_in g) = ip_module (ig_in o)) (EA : ip_alpha (ig_in g) = ip_alpha (ig_in o))
    (HI : inv (ip_alpha (ig_in g)) <= PI) (S1 : tooth_solved g sg) (S2 : tooth_solved o so).
  Let m := ip_module (ig_in g).
  Let alpha := ip_alpha (ig_in g).

  Lemma ext_mesh_eq bl a : ig_mesh_equation g o sg so bl a =
    - (tan a - a) + (tan alpha - alpha) +
      (2 * tan alpha * (ip_shift (ig_in g) + ip_shift (ig_in o))
       - 2 * (ip_backlash (ig_in g) + ip_backlash (ig_in o))
       - (ip_crown (ig_in g) + ip_crown (ig_in o)) / 500
       + bl / (m * cos alpha)) / (IZR n1 + IZR n2).
  Proof.
    assert (N1 : 0 < IZR n1) by (apply IZR_lt; apply (cy_n _ _ H1)).
    assert (N2 : 0 < IZR n2) by (apply IZR_lt; apply (cy_n _ _ H2)).
    assert (Hm : 0 < m) by apply (cy_module _ _ H1).
    assert (C : 0 < cos alpha) by (pose proof (cy_alpha _ _ H1); apply cos_gt_0; unfold alpha; lra).
    unfold ig_mesh_equation. rewrite (k_tooth_eq _ _ H1), (k_tooth_eq _ _ H2).
    cbn [inside_teeth]. rewrite I1, I2. cbn [orb]. unfold mesh_eq.
    unfold k_pitch_angle, tp_pitch_angle. rewrite (k_tooth_eq _ _ H2). cbn [num_teeth].
    rewrite (r_base_eq _ _ H1), (r_base_eq _ _ H2). unfold unit_base.
    rewrite <- EM, <- EA, (cy_teeth _ _ H1), (cy_teeth _ _ H2). fold m alpha.
    pose proof (base_arc g n1 sg H1 HI S1) as B1.
    pose proof (base_arc o n2 so H2 ltac:(rewrite <- EA; exact HI) S2) as B2.
    rewrite <- EA in B2. fold alpha in B1, B2.
    set (A1 := - ig_angle_base g sg) in *. set (A2 := - ig_angle_base o so) in *.
    unfold inv in B1, B2. set (ta := tan alpha) in *.
    set (x1 := ip_shift (ig_in g)) in *. set (x2 := ip_shift (ig_in o)) in *.
    set (b1 := ip_backlash (ig_in g)) in *. set (b2 := ip_backlash (ig_in o)) in *.
    set (c1 := ip_crown (ig_in g)) in *. set (c2 := ip_crown (ig_in o)) in *.
    assert (E1 : A1 = (PI / 2 + 2 * x1 * ta - 2 * b1 - c1 / 500 + IZR n1 * (ta - alpha)) / IZR n1)
      by (rewrite <- B1; field; lra).
    assert (E2 : A2 = (PI / 2 + 2 * x2 * ta - 2 * b2 - c2 / 500 + IZR n2 * (ta - alpha)) / IZR n2)
      by (rewrite <- B2; field; lra).
    rewrite E1, E2. field. repeat split; try lra.
    assert (0 < cos alpha * m * IZR n1) by (repeat apply Rmult_lt_0_compat; lra).
    assert (0 < cos alpha * m * IZR n2) by (repeat apply Rmult_lt_0_compat; lra). lra.
  Qed.
End ext_pair.

(** The working pressure angle of an external pair. *)
Theorem C42_working_pressure_angle g o n1 n2 sg so bl a :
  cylindrical g n1 -> cylindrical o n2 ->
  ip_inside (ig_in g) = false -> ip_inside (ig_in o) = false ->
  ip_module (ig_in g) = ip_module (ig_in o) -> ip_alpha (ig_in g) = ip_alpha (ig_in o) ->
  inv (ip_alpha (ig_in g)) <= PI -> tooth_solved g sg -> tooth_solved o so ->
  let alpha := ip_alpha (ig_in g) in
  ig_mesh_equation g o sg so bl a = 0 <->
  tan a - a = (tan alpha - alpha) +
      (2 * tan alpha * (ip_shift (ig_in g) + ip_shift (ig_in o))
       - 2 * (ip_backlash (ig_in g) + ip_backlash (ig_in o))
       - (ip_crown (ig_in g) + ip_crown (ig_in o)) / 500
       + bl / (ip_module (ig_in g) * cos alpha)) / (IZR n1 + IZR n2).
Proof.
  intros H1 H2 I1 I2 EM EA HI S1 S2 alpha.
  rewrite (ext_mesh_eq g o n1 n2 sg so H1 H2 I1 I2 EM EA HI S1 S2). fold alpha. split; intros; lra.
Qed.

(** The mesh equation of an external pair has exactly one root between - pi/2 and pi/2. *)
Theorem C42_root_exists_unique g o sg so bl :
  inside_teeth (k_tooth (ig_core g)) = false -> inside_teeth (k_tooth (ig_core o)) = false ->
  (exists a, - PI / 2 < a < PI / 2 /\ ig_mesh_equation g o sg so bl a = 0) /\
  (forall a b, - PI / 2 < a < PI / 2 -> - PI / 2 < b < PI / 2 ->
     ig_mesh_equation g o sg so bl a = 0 -> ig_mesh_equation g o sg so bl b = 0 -> a = b).
Proof.
  intros I1 I2. unfold ig_mesh_equation. rewrite I1, I2. cbn [orb]. unfold mesh_eq.
  set (q := (_ + bl / 2) / _). split.
  - destruct (inv_surj q) as (a & Ha & E). exists a. split; [exact Ha|]. unfold inv in E. lra.
  - intros a b Ha Hb E1 E2. apply inv_inj; [exact Ha|exact Hb|]. unfold inv. lra.
Qed.

(** The same for a ring pair. *)
Theorem C42_ring_root_exists_unique g o sg so bl :
  orb (inside_teeth (k_tooth (ig_core g))) (inside_teeth (k_tooth (ig_core o))) = true ->
  (exists a, - PI / 2 < a < PI / 2 /\ ig_mesh_equation g o sg so bl a = 0) /\
  (forall a b, - PI / 2 < a < PI / 2 -> - PI / 2 < b < PI / 2 ->
     ig_mesh_equation g o sg so bl a = 0 -> ig_mesh_equation g o sg so bl b = 0 -> a = b).
Proof.
  intros I1. unfold ig_mesh_equation. rewrite I1. unfold mesh_eq.
  set (q := (_ - bl / 2 * _) / _). split.
  - destruct (inv_surj (- q)) as (a & Ha & E). exists a. split; [exact Ha|]. unfold inv in E. lra.
  - intros a b Ha Hb E1 E2. apply inv_inj; [exact Ha|exact Hb|]. unfold inv. lra.
Qed.

(** No shift, thinning, crowning. *)
Definition plain (g : igear) : Prop :=
  ip_shift (ig_in g) = 0 /\ ip_backlash (ig_in g) = 0 /\ ip_crown (ig_in g) = 0.

Lemma centre_distance c d u : norm u <> 0 -> norm (vsub (vadd c (smul d (normalize u))) c) = Rabs d.
Proof.
  intros H. replace (vsub (vadd c (smul d (normalize u))) c) with (smul d (normalize u)) by (destruct c, (normalize u); vec_ring).
  rewrite norm_smul. unfold normalize. rewrite norm_smul.
  pose proof (norm_nonneg u). rewrite (Rabs_right (/ norm u)) by (left; apply Rinv_0_lt_compat; lra).
  rewrite Rinv_l by exact H. ring.
Qed.

(** Standard gears: the working pressure angle is the pressure angle, the centre distance the sum
    of the pitch radii (both profile shifts may differ if they cancel). *)
Theorem C42_standard_external g o n1 n2 sg so a target bias g' :
  cylindrical g n1 -> cylindrical o n2 ->
  ip_inside (ig_in g) = false -> ip_inside (ig_in o) = false ->
  ip_module (ig_in g) = ip_module (ig_in o) -> ip_alpha (ig_in g) = ip_alpha (ig_in o) ->
  inv (ip_alpha (ig_in g)) <= PI -> tooth_solved g sg -> tooth_solved o so ->
  ip_shift (ig_in g) + ip_shift (ig_in o) = 0 ->
  ip_backlash (ig_in g) = 0 -> ip_backlash (ig_in o) = 0 ->
  ip_crown (ig_in g) = 0 -> ip_crown (ig_in o) = 0 ->
  - PI / 2 < a < PI / 2 -> ig_mesh_equation g o sg so 0 a = 0 ->
  ig_mesh_to g o sg so a target 0 bias = Ok g' ->
  a = ip_alpha (ig_in g) /\
  norm (vsub (g_center (k_trf (ig_core g'))) (g_center (k_trf (ig_core o)))) =
    ip_module (ig_in g) * IZR n1 / 2 + ip_module (ig_in o) * IZR n2 / 2.
Proof.
  intros H1 H2 I1 I2 EM EA HI S1 S2 XS B1 B2 C1 C2 Ha EQ MT.
  assert (N1 : 0 < IZR n1) by (apply IZR_lt; apply (cy_n _ _ H1)).
  assert (N2 : 0 < IZR n2) by (apply IZR_lt; apply (cy_n _ _ H2)).
  pose proof (cy_module _ _ H1) as Hm. pose proof (cy_alpha _ _ H1) as HA.
  apply (C42_working_pressure_angle g o n1 n2 sg so 0 a H1 H2 I1 I2 EM EA HI S1 S2) in EQ.
  cbn zeta in EQ. rewrite XS, B1, B2, C1, C2 in EQ.
  assert (E : a = ip_alpha (ig_in g)).
  { apply inv_inj; [exact Ha|lra|]. unfold inv. rewrite EQ. unfold Rdiv. ring. }
  split; [exact E|].
  destruct (mesh_to_planar _ _ _ _ _ _ _ _ _ _ _ H1 H2 MT) as (Hn & _ & _ & _ & CE & _).
  rewrite CE, I1, I2, centre_distance by exact Hn. cbn [orb]. unfold mesh_dist.
  rewrite (r_base_eq _ _ H1), (r_base_eq _ _ H2). unfold unit_base.
  rewrite (cy_teeth _ _ H1), (cy_teeth _ _ H2), <- EA, <- EM, E.
  set (m := ip_module _) in *. set (al := ip_alpha _) in *.
  assert (C : 0 < cos al) by (apply cos_gt_0; lra).
  replace ((m * (IZR n1 / 2 * cos al) + m * (IZR n2 / 2 * cos al)) / cos al)
    with (m * IZR n1 / 2 + m * IZR n2 / 2) by (field; lra).
  apply Rabs_right. nra.
Qed.

(** The distance never undercuts the sum of the base radii, and the sign of the root is lost. *)
Theorem C42_distance_bound g o n1 n2 sg so a target bl bias g' :
  cylindrical g n1 -> cylindrical o n2 ->
  ip_inside (ig_in g) = false -> ip_inside (ig_in o) = false ->
  - PI / 2 < a < PI / 2 ->
  ig_mesh_to g o sg so a target bl bias = Ok g' ->
  let D := norm (vsub (g_center (k_trf (ig_core g'))) (g_center (k_trf (ig_core o)))) in
  ig_r_base g + ig_r_base o <= D /\ D * cos a = ig_r_base g + ig_r_base o /\
  (D = ig_r_base g + ig_r_base o <-> a = 0).
Proof.
  intros H1 H2 I1 I2 Ha MT D.
  destruct (mesh_to_planar _ _ _ _ _ _ _ _ _ _ _ H1 H2 MT) as (Hn & _ & _ & _ & CE & _).
  assert (Q1 : 0 < ig_r_base g) by (rewrite (r_base_eq _ _ H1); apply Rmult_lt_0_compat; [apply (cy_module _ _ H1)|apply (unit_base_pos _ _ H1)]).
  assert (Q2 : 0 < ig_r_base o) by (rewrite (r_base_eq _ _ H2); apply Rmult_lt_0_compat; [apply (cy_module _ _ H2)|apply (unit_base_pos _ _ H2)]).
  pose proof (cos_pos_in a Ha) as C. pose proof (COS_bound a) as CB.
  set (s := ig_r_base g + ig_r_base o) in *.
  assert (S0 : 0 < s) by (unfold s; lra).
  assert (P : 0 < s / cos a) by (apply Rdiv_lt_0_compat; assumption).
  assert (E : D = s / cos a).
  { unfold D. rewrite CE, I1, I2, centre_distance by exact Hn. cbn [orb]. unfold mesh_dist. fold s.
    apply Rabs_right. lra. }
  assert (E2 : D * cos a = s) by (rewrite E; field; lra).
  split; [nra|]. split; [exact E2|]. split.
  - intros E3. rewrite E3 in E2. assert (cos a = 1) by nra.
    destruct (Rtotal_order a 0) as [L|[L|L]]; [|exact L|]; exfalso.
    + assert (cos a < cos 0) by (rewrite <- cos_neg; apply cos_decreasing_1; lra). rewrite cos_0 in *. lra.
    + assert (cos a < cos 0) by (apply cos_decreasing_1; lra). rewrite cos_0 in *. lra.
  - intros Z. rewrite E, Z, cos_0. field.
Qed.

(** Ring pairs: the pinion is placed at the difference of the pitch radii. *)
Theorem C42_standard_ring g o n1 n2 sg so a target bias g' :
  cylindrical g n1 -> cylindrical o n2 ->
  ip_inside (ig_in g) = false -> ip_inside (ig_in o) = true -> (n1 < n2)%Z ->
  ip_module (ig_in g) = ip_module (ig_in o) -> ip_alpha (ig_in g) = ip_alpha (ig_in o) ->
  0 < ip_alpha (ig_in g) -> inv (ip_alpha (ig_in g)) <= PI -> tooth_solved g sg -> tooth_solved o so ->
  plain g -> plain o ->
  - PI / 2 < a < PI / 2 -> ig_mesh_equation g o sg so 0 a = 0 ->
  ig_mesh_to g o sg so a target 0 bias = Ok g' ->
  a = - ip_alpha (ig_in g) /\
  norm (vsub (g_center (k_trf (ig_core g'))) (g_center (k_trf (ig_core o)))) =
    ip_module (ig_in o) * IZR n2 / 2 - ip_module (ig_in g) * IZR n1 / 2.
Proof.
  intros H1 H2 I1 I2 LT EM EA A0 HI S1 S2 (X1 & B1 & C1) (X2 & B2 & C2) Ha EQ MT.
  assert (N1 : 0 < IZR n1) by (apply IZR_lt; apply (cy_n _ _ H1)).
  assert (N2 : 0 < IZR n2) by (apply IZR_lt; apply (cy_n _ _ H2)).
  assert (N12 : IZR n1 < IZR n2) by (apply IZR_lt; exact LT).
  pose proof (cy_module _ _ H1) as Hm. pose proof (cy_alpha _ _ H1) as HA.
  pose proof (base_arc g n1 sg H1 HI S1) as A1.
  pose proof (base_arc o n2 so H2 ltac:(rewrite <- EA; exact HI) S2) as A2.
  rewrite X1, B1, C1 in A1. rewrite X2, B2, C2, <- EA in A2.
  destruct (mesh_to_planar _ _ _ _ _ _ _ _ _ _ _ H1 H2 MT) as (Hn & _ & _ & _ & CE & _).
  rewrite I1, I2 in CE. cbn [orb] in CE.
  unfold ig_mesh_equation in EQ. rewrite (k_tooth_eq _ _ H1), (k_tooth_eq _ _ H2) in EQ.
  cbn [inside_teeth] in EQ. rewrite I1, I2 in EQ. cbn [orb] in EQ. unfold mesh_eq in EQ.
  unfold mesh_dist in CE.
  rewrite (r_base_eq _ _ H1), (r_base_eq _ _ H2) in EQ, CE. unfold unit_base in EQ, CE.
  rewrite <- EM, <- EA, (cy_teeth _ _ H1), (cy_teeth _ _ H2) in EQ, CE. rewrite <- EM.
  set (m := ip_module (ig_in g)) in *. set (al := ip_alpha (ig_in g)) in *.
  assert (C : 0 < cos al) by (apply cos_gt_0; lra).
  assert (IP : 0 < inv al) by (apply inv_pos; lra).
  set (u1 := - ig_angle_base g sg) in *. set (u2 := - ig_angle_base o so) in *.
  replace (PI / 2 + 2 * 0 * tan al - 2 * 0 - 0 / 500) with (PI / 2) in A1, A2 by field.
  pose proof PI_RGT_0 as PP.
  assert (U1 : 0 <= u1) by nra. assert (U2 : 0 <= u2) by nra.
  rewrite !Rabs_right in EQ by lra.
  assert (DD : m * (IZR n2 / 2 * cos al) * u2 - m * (IZR n1 / 2 * cos al) * u1 =
    m * cos al / 2 * ((IZR n2 - IZR n1) * inv al)).
  { replace (m * (IZR n2 / 2 * cos al) * u2 - m * (IZR n1 / 2 * cos al) * u1)
      with (m * cos al / 2 * (u2 * IZR n2 - u1 * IZR n1)) by field.
    rewrite A1, A2. field. }
  rewrite DD in EQ.
  assert (E : a = - al).
  { apply inv_inj; [exact Ha|lra|]. rewrite inv_neg. unfold inv at 1.
    replace (0 / 2 * sign (m * cos al / 2 * ((IZR n2 - IZR n1) * inv al))) with 0 in EQ by (unfold Rdiv; ring).
    replace ((m * cos al / 2 * ((IZR n2 - IZR n1) * inv al) - 0) /
      (m * (IZR n2 / 2 * cos al) - m * (IZR n1 / 2 * cos al))) with (inv al) in EQ; [lra|].
    field. assert (0 < m * cos al * (IZR n2 - IZR n1)) by (repeat apply Rmult_lt_0_compat; lra). lra. }
  split; [exact E|].
  rewrite CE, centre_distance by exact Hn. rewrite E, cos_neg.
  replace ((m * (IZR n2 / 2 * cos al) - m * (IZR n1 / 2 * cos al)) / cos al)
    with (m * IZR n2 / 2 - m * IZR n1 / 2) by (field; lra).
  apply Rabs_right. nra.
Qed.

(** Thin teeth (strongly negative shifts, no backlash requested): when the tooth space cannot be
    closed even at touching base circles the root is negative, the cosine drops its sign and the
    gears are placed as if the teeth were too thick.  Here the result is the standard distance
    although the shifts sum to a negative number. *)
Theorem C42_thin_teeth_refuted g o n1 n2 sg so a target bias g' :
  cylindrical g n1 -> cylindrical o n2 ->
  ip_inside (ig_in g) = false -> ip_inside (ig_in o) = false ->
  ip_module (ig_in g) = ip_module (ig_in o) -> ip_alpha (ig_in g) = ip_alpha (ig_in o) ->
  0 < ip_alpha (ig_in g) ->
  inv (ip_alpha (ig_in g)) <= PI -> tooth_solved g sg -> tooth_solved o so ->
  ip_shift (ig_in g) + ip_shift (ig_in o) =
    - ((IZR n1 + IZR n2) * (1 - ip_alpha (ig_in g) / tan (ip_alpha (ig_in g)))) ->
  ip_backlash (ig_in g) = 0 -> ip_backlash (ig_in o) = 0 ->
  ip_crown (ig_in g) = 0 -> ip_crown (ig_in o) = 0 ->
  - PI / 2 < a < PI / 2 -> ig_mesh_equation g o sg so 0 a = 0 ->
  ig_mesh_to g o sg so a target 0 bias = Ok g' ->
  ip_shift (ig_in g) + ip_shift (ig_in o) < 0 /\
  a = - ip_alpha (ig_in g) /\
  norm (vsub (g_center (k_trf (ig_core g'))) (g_center (k_trf (ig_core o)))) =
    ip_module (ig_in g) * IZR n1 / 2 + ip_module (ig_in o) * IZR n2 / 2.
Proof.
  intros H1 H2 I1 I2 EM EA A0 HI S1 S2 XS B1 B2 C1 C2 Ha EQ MT.
  assert (N1 : 0 < IZR n1) by (apply IZR_lt; apply (cy_n _ _ H1)).
  assert (N2 : 0 < IZR n2) by (apply IZR_lt; apply (cy_n _ _ H2)).
  pose proof (cy_module _ _ H1) as Hm. pose proof (cy_alpha _ _ H1) as HA.
  apply (C42_working_pressure_angle g o n1 n2 sg so 0 a H1 H2 I1 I2 EM EA HI S1 S2) in EQ.
  cbn zeta in EQ. rewrite XS, B1, B2, C1, C2 in EQ.
  set (al := ip_alpha (ig_in g)) in *.
  assert (IP : 0 < inv al) by (apply inv_pos; lra). unfold inv in IP.
  assert (T0 : 0 < tan al) by lra.
  assert (C : 0 < cos al) by (apply cos_gt_0; lra).
  split.
  { rewrite XS. assert (al / tan al < 1).
    { apply Rmult_lt_reg_r with (tan al); [exact T0|]. unfold Rdiv. rewrite Rmult_assoc, Rinv_l by lra. lra. }
    nra. }
  assert (E : a = - al).
  { apply inv_inj; [exact Ha|lra|]. rewrite inv_neg. unfold inv. rewrite EQ. field.
    repeat split; try lra. }
  split; [exact E|].
  destruct (mesh_to_planar _ _ _ _ _ _ _ _ _ _ _ H1 H2 MT) as (Hn & _ & _ & _ & CE & _).
  rewrite CE, I1, I2, centre_distance by exact Hn. cbn [orb]. unfold mesh_dist.
  rewrite (r_base_eq _ _ H1), (r_base_eq _ _ H2). unfold unit_base.
  rewrite (cy_teeth _ _ H1), (cy_teeth _ _ H2), <- EA, <- EM, E. fold al.
  set (m := ip_module _) in *. rewrite cos_neg.
  replace ((m * (IZR n1 / 2 * cos al) + m * (IZR n2 / 2 * cos al)) / cos al)
    with (m * IZR n1 / 2 + m * IZR n2 / 2) by (field; lra).
  apply Rabs_right. nra.
Qed.

(** ** C43 *)
Lemma acos_dist s a : 0 < s -> 0 <= a < PI / 2 -> acos (s / (s / cos a)) = a.
Proof.
  intros Hs Ha. pose proof PI_RGT_0. assert (C : 0 < cos a) by (apply cos_gt_0; lra).
  replace (s / (s / cos a)) with (cos a) by (field; lra). apply acos_cos. lra.
Qed.

(** With negated base angles the function returns half of the backlash. *)
Theorem C43_half_backlash rb1 rb2 A1 A2 p2 bl a : 0 < rb1 -> 0 < rb2 -> 0 <= a < PI / 2 ->
  mesh_eq rb1 rb2 A1 A2 p2 false bl a = 0 ->
  backlash_from_ax_distance (mesh_dist rb1 rb2 false a) rb1 rb2 (- A1) (- A2) p2 false = bl / 2.
Proof.
  intros R1 R2 Ha E. unfold mesh_eq in E. unfold backlash_from_ax_distance, mesh_dist.
  rewrite acos_dist by lra.
  assert (X : (tan a - a) * (rb1 + rb2) = rb1 * A1 - rb2 * (p2 / 2 - A2) + bl / 2).
  { replace (tan a - a) with ((rb1 * A1 - rb2 * (p2 / 2 - A2) + bl / 2) / (rb1 + rb2)) by lra. field. lra. }
  lra.
Qed.

(** With the arguments of calc_involute_mesh_distance it returns something else. *)
Theorem C43_same_arguments rb1 rb2 A1 A2 p2 bl a : 0 < rb1 -> 0 < rb2 -> 0 <= a < PI / 2 ->
  mesh_eq rb1 rb2 A1 A2 p2 false bl a = 0 ->
  backlash_from_ax_distance (mesh_dist rb1 rb2 false a) rb1 rb2 A1 A2 p2 false
    = bl / 2 + 2 * (rb1 * A1 + rb2 * A2).
Proof.
  intros R1 R2 Ha E. unfold mesh_eq in E. unfold backlash_from_ax_distance, mesh_dist.
  rewrite acos_dist by lra.
  assert (X : (tan a - a) * (rb1 + rb2) = rb1 * A1 - rb2 * (p2 / 2 - A2) + bl / 2).
  { replace (tan a - a) with ((rb1 * A1 - rb2 * (p2 / 2 - A2) + bl / 2) / (rb1 + rb2)) by lra. field. lra. }
  lra.
Qed.

(** Ring pairs. *)
Lemma ring_eq rb1 rb2 A1 A2 p2 bl a : 0 < rb1 < rb2 -> 0 <= A1 -> 0 <= A2 ->
  rb1 * A1 < rb2 * A2 -> bl / 2 <= rb2 * A2 - rb1 * A1 -> - PI / 2 < a < PI / 2 ->
  mesh_eq rb1 rb2 A1 A2 p2 true bl a = 0 ->
  a <= 0 /\ (tan (- a) - - a) * (rb2 - rb1) = rb2 * A2 - rb1 * A1 - bl / 2.
Proof.
  intros R HA1 HA2 DD HB Ha E. unfold mesh_eq in E. rewrite !Rabs_right in E by lra.
  rewrite sign_pos in E by lra.
  assert (X : tan (- a) - - a = (rb2 * A2 - rb1 * A1 - bl / 2) / (rb2 - rb1)).
  { rewrite tan_neg. replace ((rb2 * A2 - rb1 * A1 - bl / 2) / (rb2 - rb1))
      with ((rb2 * A2 - rb1 * A1 - bl / 2 * 1) / (rb2 - rb1)) by (f_equal; ring). lra. }
  split.
  - assert (0 <= - a); [|lra]. apply inv_sign; [lra|]. unfold inv. rewrite X.
    apply Rmult_le_pos; [lra|]. left. apply Rinv_0_lt_compat. lra.
  - rewrite X. field. lra.
Qed.

Theorem C43_ring_same_arguments rb1 rb2 A1 A2 p2 bl a : 0 < rb1 < rb2 -> 0 <= A1 -> 0 <= A2 ->
  rb1 * A1 < rb2 * A2 -> bl / 2 <= rb2 * A2 - rb1 * A1 -> - PI / 2 < a < PI / 2 ->
  mesh_eq rb1 rb2 A1 A2 p2 true bl a = 0 ->
  backlash_from_ax_distance (mesh_dist rb1 rb2 true a) rb1 rb2 A1 A2 p2 true = - (bl / 2) /\
  backlash_from_ax_distance (mesh_dist rb1 rb2 true a) rb1 rb2 (- A1) (- A2) p2 true
    = 2 * (rb2 * A2 - rb1 * A1) - bl / 2.
Proof.
  intros R HA1 HA2 DD HB Ha E. destruct (ring_eq rb1 rb2 A1 A2 p2 bl a R HA1 HA2 DD HB Ha E) as (N & X).
  unfold backlash_from_ax_distance, mesh_dist.
  rewrite <- (cos_neg a). rewrite acos_dist by lra. lra.
Qed.

Example C43_example : exists a, 0 <= a < PI / 2 /\ mesh_eq 9 9 (1 / 10) (1 / 10) (2 / 10) false (1 / 5) a = 0 /\
  backlash_from_ax_distance (mesh_dist 9 9 false a) 9 9 (- (1 / 10)) (- (1 / 10)) (2 / 10) false = (1 / 5) / 2 /\
  backlash_from_ax_distance (mesh_dist 9 9 false a) 9 9 (1 / 10) (1 / 10) (2 / 10) false <> 1 / 5.
Proof.
  destruct (inv_surj_nonneg ((9 * (1 / 10) - 9 * ((2 / 10) / 2 - 1 / 10) + (1 / 5) / 2) / (9 + 9)) ltac:(lra))
    as (a & Ha & E).
  exists a. assert (Q : mesh_eq 9 9 (1 / 10) (1 / 10) (2 / 10) false (1 / 5) a = 0).
  { unfold mesh_eq. unfold inv in E. lra. }
  split; [exact Ha|]. split; [exact Q|]. split.
  - apply C43_half_backlash; solve [lra | exact Q].
  - rewrite (C43_same_arguments 9 9 (1 / 10) (1 / 10) (2 / 10) (1 / 5) a); [intros W; lra|lra|lra|lra|exact Q].
Qed.

(** ** C49 *)

(** Pinion into ring: on the side of the target direction.  Ring over pinion: on the other side. *)
Theorem C49_sides g o n1 n2 sg so a target bl bias g' :
  cylindrical g n1 -> cylindrical o n2 ->
  orb (ip_inside (ig_in g)) (ip_inside (ig_in o)) = true -> - PI / 2 < a < PI / 2 ->
  ig_mesh_to g o sg so a target bl bias = Ok g' ->
  let move := dot (vsub (g_center (k_trf (ig_core g'))) (g_center (k_trf (ig_core o)))) target in
  (ig_r_base g < ig_r_base o -> 0 < move) /\ (ig_r_base o < ig_r_base g -> move < 0).
Proof.
  intros H1 H2 I Ha MT move.
  destruct (mesh_to_planar _ _ _ _ _ _ _ _ _ _ _ H1 H2 MT) as (Hn & _ & _ & _ & CE & _).
  rewrite I in CE. unfold mesh_dist in CE.
  pose proof (cos_pos_in a Ha) as C. pose proof (norm_nonneg target) as NN.
  assert (M : move = (ig_r_base o - ig_r_base g) / cos a * norm target).
  { unfold move. rewrite CE. set (d := _ / cos a). set (c := g_center _).
    replace (vsub (vadd c (smul d (normalize target))) c) with (smul d (normalize target))
      by (destruct c, (normalize target); vec_ring).
    unfold normalize. rewrite smul_smul, dot_smul_l.
    replace (dot target target) with (norm target * norm target) by (unfold norm; apply sqrt_sqrt; apply dot_nonneg).
    field. exact Hn. }
  rewrite M. split; intros L.
  - apply Rmult_lt_0_compat; [|lra]. apply Rdiv_lt_0_compat; lra.
  - assert (0 < (ig_r_base g - ig_r_base o) / cos a * norm target).
    { apply Rmult_lt_0_compat; [|lra]. apply Rdiv_lt_0_compat; lra. }
    replace ((ig_r_base o - ig_r_base g) / cos a * norm target)
      with (- ((ig_r_base g - ig_r_base o) / cos a * norm target)) by (field; lra). lra.
Qed.

(** The nominal distance is positive in both ring cases. *)
Theorem C49_nominal_positive rp_ring rp_pinion : 0 < rp_pinion < rp_ring ->
  nominal_dist rp_ring rp_pinion 0 0 1 true false = rp_ring - rp_pinion /\
  nominal_dist rp_pinion rp_ring 0 0 1 false true = rp_ring - rp_pinion /\
  0 < rp_ring - rp_pinion.
Proof. intros H. unfold nominal_dist. repeat split; lra. Qed.
