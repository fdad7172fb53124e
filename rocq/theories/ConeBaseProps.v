(** Property C95: the search for the base circle of a spherical involute (gearteeth.py 74-97) has a solution, and only one. *)
From Coq Require Import Reals Lra List Bool.
From Verif Require Import Num Vec Transform Params Coords CoordsProps Gen GenProps Interp Curve CurveLem Chain Profile Tooth Cycloid Teeth
  ConeFlankProps CrownRackProps.
Import ListNotations.
Open Scope R_scope.

(** The tangent of the spherical involute at [t] encloses the angle of 90 degrees plus the pressure angle with the direction of
    the circle around the axis, which is what [involute_angle_func] compares (80-91; it takes the difference quotient for
    [DELTA] in place of the derivative). *)
Definition pressure_met (RR t r alpha : R) : Prop := let curve := fun u => involute_sphere u r (1 / RR) 0 ORIGIN 0 in
  exists T, derivable_pt_lim (fun u => vx (curve u)) t (vx T) /\ derivable_pt_lim (fun u => vy (curve u)) t (vy T) /\
    derivable_pt_lim (fun u => vz (curve u)) t (vz T) /\ T <> ORIGIN /\
    let p := curve t in angle_between T (cross (vsub p (on_z (sqrt (RR * RR - r * r)))) (V (vx p) (vy p) 0)) = PI / 2 + alpha.

Lemma angle_cos a b : norm a * norm b * cos (angle_between a b) = dot a b.
Proof. unfold angle_between. destruct (arctan2_cos_sin (norm (cross a b)) (dot a b)) as (C & _). rewrite cross_dot_norm in C. exact C. Qed.
Lemma angle_of a b th : 0 < norm a * norm b -> 0 <= th <= PI -> dot a b = norm a * norm b * cos th -> angle_between a b = th.
Proof.
  intros P T E. rewrite <- (acos_cos th T), <- (acos_cos (angle_between a b) (C14_angle_range a b)). f_equal. rewrite <- angle_cos in E. apply Rmult_eq_reg_l with (norm a * norm b); [exact E|lra].
Qed.

Section Sphere.
Variables Q r : R.
Hypothesis Q0 : 0 < Q.
Hypothesis BR : - Q <= r <= Q.
Let w : R := sqrt (Q * Q - r * r).
Lemma w_sq : 0 <= w /\ w * w = Q * Q - r * r.
Proof. split; [apply sqrt_pos|]. apply sqrt_sqrt. assert (0 <= (Q - r) * (Q + r)) by (apply Rmult_le_pos; lra). lra. Qed.
Lemma inv_point u : let f := r / Q * u in
  involute_sphere u r (1 / Q) 0 ORIGIN 0 = V (r * cos f * cos u + Q * sin f * sin u) (r * cos f * sin u - Q * sin f * cos u) (w - w * cos f).
Proof.
  intros f. assert (IQ : 0 < 1 / Q) by (apply Rdiv_lt_0_compat; lra). unfold involute_sphere. destruct (Req_EM_T (1 / Q) 0); [lra|]. cbv zeta.
  rewrite (Rabs_right (1 / Q)), (sign_pos (1 / Q)) by lra. replace (1 / (1 / Q)) with Q by (field; lra). fold f w.
  assert (BQ : - 1 <= r / Q <= 1).
  { split; apply Rmult_le_reg_r with Q; try lra; replace (r / Q * Q) with r by (field; lra); lra. }
  assert (SB : sin (asin (r / Q)) = r / Q) by (apply sin_asin; exact BQ).
  assert (CB : Q * cos (asin (r / Q)) = w).
  { rewrite cos_asin by exact BQ. unfold Rsqr. symmetry. apply sqrt_lem_1.
    - assert (0 <= (Q - r) * (Q + r)) by (apply Rmult_le_pos; lra). lra.
    - apply Rmult_le_pos; [lra|apply sqrt_pos].
    - replace (Q * sqrt (1 - r / Q * (r / Q)) * (Q * sqrt (1 - r / Q * (r / Q)))) with (Q * Q * (sqrt (1 - r / Q * (r / Q)) * sqrt (1 - r / Q * (r / Q)))) by ring.
      rewrite sqrt_sqrt; [field; lra|]. assert (0 <= (1 - r / Q) * (1 + r / Q)) by (apply Rmult_le_pos; lra). lra. }
  replace ((PI / 2 - asin (r / Q)) * 1) with (PI / 2 - asin (r / Q)) by ring. rewrite !Rplus_0_r.
  assert (C1 : cos (PI / 2 - asin (r / Q)) = r / Q) by (rewrite cos_shift; exact SB).
  assert (C2 : sin (PI / 2 - asin (r / Q)) = cos (asin (r / Q))) by apply sin_shift.
  set (th := PI / 2 - asin (r / Q)) in *. clearbody th f w.
  assert (K : r = Q * cos th) by (rewrite C1; field; lra). rewrite <- CB, <- C2, K. clear.
  generalize (- (PI / 2) * 1). intros e. apply vec_eq; vec_simpl; rewrite ?cos_neg, ?sin_neg; ring.
Qed.
Lemma inv_tangent u : let f := r / Q * u in let curve := fun u => involute_sphere u r (1 / Q) 0 ORIGIN 0 in
  derivable_pt_lim (fun u => vx (curve u)) u (w * w / Q * sin f * cos u) /\ derivable_pt_lim (fun u => vy (curve u)) u (w * w / Q * sin f * sin u) /\
  derivable_pt_lim (fun u => vz (curve u)) u (w * r / Q * sin f).
Proof.
  intros f curve. destruct w_sq as (_ & WW).
  assert (DS : derivable_pt_lim (fun u => sin (r / Q * u)) u (r / Q * cos f)).
  { replace (r / Q * cos f) with (cos (r / Q * u) * (r / Q * 1)) by (unfold f; ring). apply (derivable_pt_lim_comp (fun u => r / Q * u) sin); [|apply derivable_pt_lim_sin].
    apply (derivable_pt_lim_scal (fun u => u)). apply derivable_pt_lim_id. }
  assert (DC : derivable_pt_lim (fun u => cos (r / Q * u)) u (- (r / Q * sin f))).
  { replace (- (r / Q * sin f)) with (- sin (r / Q * u) * (r / Q * 1)) by (unfold f; ring). apply (derivable_pt_lim_comp (fun u => r / Q * u) cos); [|apply derivable_pt_lim_cos].
    apply (derivable_pt_lim_scal (fun u => u)). apply derivable_pt_lim_id. }
  pose proof (derivable_pt_lim_sin u) as S. pose proof (derivable_pt_lim_cos u) as C.
  assert (EXT : forall F G x l, (forall u, F u = G u) -> derivable_pt_lim G x l -> derivable_pt_lim F x l).
  { intros F G x l E H e Ee. destruct (H e Ee) as (d & D). exists d. intros h N L. rewrite !E. apply D; assumption. }
  split; [|split].
  - apply EXT with (fun u => r * (cos (r / Q * u) * cos u) + Q * (sin (r / Q * u) * sin u)); [intros x; unfold curve; rewrite inv_point; cbn [vx]; ring|].
    pose proof (derivable_pt_lim_plus _ _ _ _ _ (derivable_pt_lim_scal _ r _ _ (derivable_pt_lim_mult _ _ _ _ _ DC C)) (derivable_pt_lim_scal _ Q _ _ (derivable_pt_lim_mult _ _ _ _ _ DS S))) as K.
    unfold mult_real_fct, plus_fct, mult_fct in K. fold f in K. match type of K with derivable_pt_lim _ _ ?l => replace (w * w / Q * sin f * cos u) with l; [exact K|] end.
    rewrite WW. field. lra.
  - apply EXT with (fun u => r * (cos (r / Q * u) * sin u) - Q * (sin (r / Q * u) * cos u)); [intros x; unfold curve; rewrite inv_point; cbn [vy]; ring|].
    pose proof (derivable_pt_lim_minus _ _ _ _ _ (derivable_pt_lim_scal _ r _ _ (derivable_pt_lim_mult _ _ _ _ _ DC S)) (derivable_pt_lim_scal _ Q _ _ (derivable_pt_lim_mult _ _ _ _ _ DS C))) as K.
    unfold mult_real_fct, minus_fct, mult_fct in K. fold f in K. match type of K with derivable_pt_lim _ _ ?l => replace (w * w / Q * sin f * sin u) with l; [exact K|] end.
    rewrite WW. field. lra.
  - apply EXT with (fun u => w - w * cos (r / Q * u)); [intros x; unfold curve; rewrite inv_point; cbn [vz]; ring|].
    pose proof (derivable_pt_lim_minus _ _ _ _ _ (derivable_pt_lim_const w u) (derivable_pt_lim_scal _ w _ _ DC)) as K.
    unfold mult_real_fct, minus_fct, fct_cte in K. match type of K with derivable_pt_lim _ _ ?l => replace (w * r / Q * sin f) with l; [exact K|] end. field. lra.
Qed.
(** The two directions that are compared, their lengths and their product. *)
Lemma inv_angle u rp : let f := r / Q * u in let T := V (w * w / Q * sin f * cos u) (w * w / Q * sin f * sin u) (w * r / Q * sin f) in
  let p := involute_sphere u r (1 / Q) 0 ORIGIN 0 in let S := cross (vsub p (on_z w)) (V (vx p) (vy p) 0) in
  0 <= rp -> vx p * vx p + vy p * vy p = rp * rp -> 0 <= w * cos f ->
  norm T = w * Rabs (sin f) /\ norm S = w * cos f * rp /\ dot T S = - (w * w * w * cos f * (sin f * sin f)) /\ r * r + w * w * (sin f * sin f) = rp * rp.
Proof.
  intros f T p S RP ER WC. destruct w_sq as (W0 & WW).
  assert (EP : p = V (r * cos f * cos u + Q * sin f * sin u) (r * cos f * sin u - Q * sin f * cos u) (w - w * cos f)) by apply inv_point.
  assert (AA : Rabs (sin f) * Rabs (sin f) = sin f * sin f) by (rewrite <- Rabs_mult; apply Rabs_right; pose proof (Rle_0_sqr (sin f)); unfold Rsqr in *; lra).
  pose proof (sc1 u) as CU. pose proof (sc1 f) as CF.
  split; [|split; [|split]].
  - apply norm_eq; [apply Rmult_le_pos; [exact W0|apply Rabs_pos]|]. replace (w * Rabs (sin f) * (w * Rabs (sin f))) with (w * w * (Rabs (sin f) * Rabs (sin f))) by ring. rewrite AA.
    unfold T. transitivity (w * w / (Q * Q) * (sin f * sin f) * (w * w * (sin u * sin u + cos u * cos u) + r * r)).
    + clearbody w f. clear. vec_simpl. unfold Rdiv. rewrite ?Rinv_mult. ring.
    + replace (sin u * sin u + cos u * cos u) with 1 by lra. rewrite WW at 2. field. lra.
  - apply norm_eq; [apply Rmult_le_pos; assumption|].
    transitivity (w * cos f * (w * cos f) * (rp * rp)); [|ring]. rewrite <- ER. unfold S. clearbody w f. clear - EP. unfold on_z. rewrite EP. cbn [vx vy].
    set (x := r * cos f * cos u + Q * sin f * sin u). set (y := r * cos f * sin u - Q * sin f * cos u). clearbody x y. vec_simpl. ring.
  - unfold S, T. rewrite EP. cbn [vx vy]. unfold on_z. clearbody w f. transitivity (- (w * w * w * cos f * (sin f * sin f)) * (sin u * sin u + cos u * cos u)).
    + clear - Q0. vec_simpl. field. lra.
    + replace (sin u * sin u + cos u * cos u) with 1 by lra. ring.
  - rewrite <- ER, EP. cbn [vx vy]. transitivity (r * r * (cos f * cos f) + Q * Q * (sin f * sin f)).
    + rewrite WW. replace (cos f * cos f) with (1 - sin f * sin f) by lra. ring.
    + transitivity ((r * r * (cos f * cos f) + Q * Q * (sin f * sin f)) * (sin u * sin u + cos u * cos u)); [replace (sin u * sin u + cos u * cos u) with 1 by lra; ring|ring].
Qed.
End Sphere.

(** C95: for pressure angles up to 60 degrees the two equations of the search for the base circle are solved by the base radius of the
    planar gear, the pitch radius times the cosine of the pressure angle, and by no other that is not negative. *)
Theorem C95_base_radius rp g alpha : 0 < rp -> 0 < g < PI / 2 -> 0 < alpha <= PI / 3 -> let RR := apex_dist rp g in
  (exists t, 0 < t <= PI /\ base_solution rp RR t (rp * cos alpha) /\ pressure_met RR t (rp * cos alpha) alpha) /\
  forall t r, 0 <= r -> base_solution rp RR t r -> pressure_met RR t r alpha -> r = rp * cos alpha.
Proof.
  intros R0 G A RR. pose proof PI_RGT_0. assert (SG : 0 < sin g) by (apply sin_gt_0; lra). assert (CG : 0 < cos g) by (apply cos_gt_0; lra).
  assert (EQ : RR * sin g = rp).
  { destruct (apex_dist_facts rp g R0 ltac:(lra)) as (_ & _ & E & _). fold RR in E. rewrite Rabs_right in E by lra. exact E. }
  assert (Q0 : 0 < RR) by (destruct (apex_dist_facts rp g R0 ltac:(lra)) as (_ & P & _); exact P).
  assert (LT : rp < RR). { rewrite <- EQ at 1. rewrite <- (Rmult_1_r RR) at 2. apply Rmult_lt_compat_l; [exact Q0|]. pose proof (sc1 g). destruct (Rlt_dec (sin g) 1) as [|N]; [assumption|]. exfalso.
    assert (1 * 1 <= sin g * sin g) by (apply Rmult_le_compat; lra). assert (0 < cos g * cos g) by (apply Rmult_lt_0_compat; lra). lra. }
  assert (SA : 0 < sin alpha) by (apply sin_gt_0; lra). assert (CA : 1 / 2 <= cos alpha).
  { rewrite <- cos_PI3. destruct (Req_dec alpha (PI / 3)) as [->|N]; [lra|]. left. apply cos_decreasing_1; lra. }
  assert (CA1 : cos alpha <= 1) by apply COS_bound. pose proof (sc1 alpha) as TA.
  split.
  - set (r := rp * cos alpha). assert (RP : 0 < r) by (apply Rmult_lt_0_compat; lra). assert (RL : r <= rp) by (unfold r; rewrite <- (Rmult_1_r rp) at 2; apply Rmult_le_compat_l; lra).
    assert (BR : - RR <= r <= RR) by lra. destruct (w_sq RR r BR) as (W0 & WW). set (w := sqrt (RR * RR - r * r)) in *.
    assert (DW : w * w = RR * RR - rp * rp + rp * sin alpha * (rp * sin alpha)).
    { rewrite WW. unfold r. replace (rp * sin alpha * (rp * sin alpha)) with (rp * rp * (sin alpha * sin alpha)) by ring. replace (sin alpha * sin alpha) with (1 - cos alpha * cos alpha) by lra. ring. }
    assert (QP : 0 < RR * RR - rp * rp) by (replace (RR * RR - rp * rp) with ((RR - rp) * (RR + rp)) by ring; apply Rmult_lt_0_compat; lra).
    assert (PS : 0 < rp * sin alpha) by (apply Rmult_lt_0_compat; lra).
    assert (LW : rp * sin alpha < w).
    { destruct (Rlt_dec (rp * sin alpha) w) as [|N]; [assumption|]. exfalso. assert (w * w <= rp * sin alpha * (rp * sin alpha)) by (apply Rmult_le_compat; lra). lra. }
    assert (WQ : RR * sin alpha <= w).
    { destruct (Rle_dec (RR * sin alpha) w) as [|N]; [assumption|]. exfalso. apply Rnot_le_lt in N. assert (w * w < RR * sin alpha * (RR * sin alpha)) by (apply Rmult_le_0_lt_compat; lra).
      assert (E : w * w - RR * sin alpha * (RR * sin alpha) = (RR * RR - rp * rp) * (cos alpha * cos alpha)).
      { rewrite DW. replace (cos alpha * cos alpha) with (1 - sin alpha * sin alpha) by lra. ring. }
      assert (0 <= (RR * RR - rp * rp) * (cos alpha * cos alpha)) by (apply Rmult_le_pos; [lra|apply Rmult_le_pos; lra]). lra. }
    set (k := rp * sin alpha / w). assert (K : 0 < k < 1).
    { split; [apply Rdiv_lt_0_compat; lra|]. apply Rmult_lt_reg_r with w; [lra|]. unfold k. replace (rp * sin alpha / w * w) with (rp * sin alpha) by (field; lra). lra. }
    set (f := asin k). assert (SF : sin f = k) by (apply sin_asin; lra).
    assert (F : 0 < f < PI / 2) by (pose proof (asin_bound_lt k ltac:(lra)); split; [|unfold f; lra]; apply sin_increasing_0; [lra|lra|unfold f; lra|unfold f; lra|rewrite sin_0, SF; lra]).
    assert (CF : 0 < cos f) by (apply cos_gt_0; lra).
    assert (JO : f <= PI / 2 * k).
    { rewrite <- SF. pose proof (sin_concave (f / (PI / 2)) (PI / 2)) as J. rewrite sin_PI2 in J. replace (f / (PI / 2) * (PI / 2)) with f in J by (field; lra).
      assert (B : 0 < f / (PI / 2) < 1).
      { split; [apply Rdiv_lt_0_compat; lra|]. apply Rmult_lt_reg_r with (PI / 2); [lra|]. replace (f / (PI / 2) * (PI / 2)) with f by (field; lra). lra. }
      specialize (J B ltac:(lra)). apply Rmult_le_reg_r with (2 / PI); [apply Rdiv_lt_0_compat; lra|]. replace (PI / 2 * sin f * (2 / PI)) with (sin f) by (field; lra).
      replace (f * (2 / PI)) with (f / (PI / 2)) by (field; lra). lra. }
    set (t := f * RR / r). assert (FT : r / RR * t = f) by (unfold t; field; lra).
    assert (T0 : 0 < t) by (apply Rdiv_lt_0_compat; [apply Rmult_lt_0_compat|]; lra).
    assert (T1 : t <= PI).
    { apply Rmult_le_reg_r with r; [exact RP|]. unfold t. replace (f * RR / r * r) with (f * RR) by (field; lra).
      apply Rle_trans with (PI / 2 * k * RR); [apply Rmult_le_compat_r; lra|].
      assert (KR : k * RR <= rp).
      { apply Rmult_le_reg_r with w; [lra|]. unfold k. replace (rp * sin alpha / w * RR * w) with (rp * (RR * sin alpha)) by (field; lra). apply Rmult_le_compat_l; lra. }
      replace (PI / 2 * k * RR) with (PI * (k * RR / 2)) by field. apply Rmult_le_compat_l; [lra|]. unfold r. assert (rp * (1 / 2) <= rp * cos alpha) by (apply Rmult_le_compat_l; lra). lra. }
    exists t. split; [lra|]. pose proof (inv_point RR r Q0 BR t) as EP. cbv zeta in EP. rewrite FT in EP. fold w in EP.
    assert (RAD : vx (involute_sphere t r (1 / RR) 0 ORIGIN 0) * vx (involute_sphere t r (1 / RR) 0 ORIGIN 0) + vy (involute_sphere t r (1 / RR) 0 ORIGIN 0) * vy (involute_sphere t r (1 / RR) 0 ORIGIN 0) = rp * rp).
    { rewrite EP. cbn [vx vy]. transitivity ((r * r * (cos f * cos f) + RR * RR * (sin f * sin f)) * (sin t * sin t + cos t * cos t)); [ring|].
      pose proof (sc1 t). replace (sin t * sin t + cos t * cos t) with 1 by lra. pose proof (sc1 f). replace (cos f * cos f) with (1 - sin f * sin f) by lra.
      replace ((r * r * (1 - sin f * sin f) + RR * RR * (sin f * sin f)) * 1) with (r * r + (RR * RR - r * r) * (sin f * sin f)) by ring. rewrite <- WW, SF.
      replace (w * w * (k * k)) with (rp * sin alpha * (rp * sin alpha)) by (unfold k; field; lra). unfold r.
      transitivity (rp * rp * (sin alpha * sin alpha + cos alpha * cos alpha)); [ring|]. replace (sin alpha * sin alpha + cos alpha * cos alpha) with 1 by lra. ring. }
    split; [constructor; [exact BR|exact RAD| |]|].
    + (* the curve starts on the axis through the start of the base circle and moves to one side *)
      set (Y := fun u => vy (involute_sphere u r (1 / RR) 0 ORIGIN 0)). change (0 <= Y t).
      destruct (MVT_cor2 Y (fun u => w * w / RR * sin (r / RR * u) * sin u) 0 t T0) as (c & E & C).
      { intros c _. destruct (inv_tangent RR r Q0 BR c) as (_ & D & _). exact D. }
      assert (Y0 : Y 0 = 0) by (unfold Y; rewrite inv_point by assumption; cbn [vy]; rewrite Rmult_0_r, sin_0; ring).
      rewrite Y0, !Rminus_0_r in E. rewrite E.
      assert (PC : 0 <= r / RR * c <= PI).
      { assert (0 < r / RR) by (apply Rdiv_lt_0_compat; lra). split; [apply Rmult_le_pos; lra|]. assert (r / RR * c <= r / RR * t) by (apply Rmult_le_compat_l; lra). lra. }
      apply Rmult_le_pos; [|lra]. apply Rmult_le_pos; [apply Rmult_le_pos; [|apply sin_ge_0; lra]|apply sin_ge_0; lra].
      apply Rmult_le_pos; [apply Rmult_le_pos; lra|left; apply Rinv_0_lt_compat; lra].
    + rewrite EP. cbn [vz]. assert (0 <= w * cos f) by (apply Rmult_le_pos; lra). fold w. lra.
    + destruct (inv_tangent RR r Q0 BR t) as (DX & DY & DZ). rewrite FT in DX, DY, DZ. fold w in DX, DY, DZ.
      pose proof (inv_angle RR r Q0 BR t rp) as IA. cbv zeta in IA. rewrite FT in IA. fold w in IA.
      destruct (IA ltac:(lra) RAD ltac:(apply Rmult_le_pos; lra)) as (N1 & N2 & D & _).
      set (T := V (w * w / RR * sin f * cos t) (w * w / RR * sin f * sin t) (w * r / RR * sin f)) in *. exists T.
      assert (SFP : 0 < sin f) by lra. rewrite Rabs_right in N1 by lra.
      assert (WP : 0 < w) by lra. assert (P1 : 0 < w * sin f) by (apply Rmult_lt_0_compat; lra). assert (P2 : 0 < w * cos f * rp) by (apply Rmult_lt_0_compat; [apply Rmult_lt_0_compat; lra|lra]).
      split; [exact DX|]. split; [exact DY|]. split; [exact DZ|]. split; [intros Z; rewrite Z in N1; rewrite (norm_eq ORIGIN 0) in N1; [lra|lra|vec_simpl; ring]|].
      cbv zeta. fold w. apply angle_of; [rewrite N1, N2; apply Rmult_lt_0_compat; assumption|lra|]. rewrite D, N1, N2. rewrite cos_plus, cos_PI2, sin_PI2.
      rewrite SF. unfold k. field. lra.
  - intros t r RN [BR RAD _ HALF] (T & DX & DY & DZ & TN & ANG). cbv zeta in ANG. destruct (w_sq RR r BR) as (W0 & WW).
    destruct (inv_tangent RR r Q0 BR t) as (DX' & DY' & DZ'). pose proof (inv_point RR r Q0 BR t) as EP. cbv zeta in EP.
    pose proof (inv_angle RR r Q0 BR t rp) as IA. cbv zeta in IA. set (w := sqrt (RR * RR - r * r)) in *. set (f := r / RR * t) in *.
    assert (WC : 0 <= w * cos f) by (rewrite EP in HALF; cbn [vz] in HALF; lra).
    destruct (IA ltac:(lra) RAD WC) as (N1 & N2 & D & E).
    pose proof (uniqueness_limite _ _ _ _ DX DX') as X1. pose proof (uniqueness_limite _ _ _ _ DY DY') as X2. pose proof (uniqueness_limite _ _ _ _ DZ DZ') as X3.
    assert (ET : T = V (w * w / RR * sin f * cos t) (w * w / RR * sin f * sin t) (w * r / RR * sin f)) by (apply vec_eq; [exact X1|exact X2|exact X3]).
    rewrite <- ET in N1, D. set (S := cross _ _) in *.
    assert (NZ : w * Rabs (sin f) <> 0).
    { intros Z. rewrite Z in N1. apply TN. apply norm_zero. exact N1. }
    assert (WP : 0 < w) by (destruct W0 as [|Z]; [assumption|]; exfalso; apply NZ; rewrite <- Z; ring).
    assert (SP : 0 < Rabs (sin f)) by (destruct (Rabs_pos (sin f)) as [|Z]; [assumption|]; exfalso; apply NZ; rewrite <- Z; ring).
    assert (CP : 0 < w * cos f).
    { destruct WC as [|Z]; [assumption|]. exfalso. assert (NS : norm S = 0) by (rewrite N2, <- Z; ring). apply norm_zero in NS.
      pose proof (angle_cos T S) as AC. assert (AG : angle_between T S = 0).
      { unfold angle_between. rewrite NS. replace (cross T ORIGIN) with ORIGIN by (clear; destruct T; apply vec_eq; vec_simpl; ring). replace (dot T ORIGIN) with 0 by (clear; destruct T; vec_simpl; ring).
        rewrite (norm_eq ORIGIN 0) by (try lra; vec_simpl; ring). unfold arctan2. destruct (Rlt_dec 0 0); [lra|]. destruct (Rlt_dec 0 0); [lra|]. destruct (Rlt_dec 0 0); [lra|]. reflexivity. }
      rewrite AG in ANG. lra. }
    pose proof (angle_cos T S) as AC. rewrite ANG, N1, N2, D, cos_plus, cos_PI2, sin_PI2 in AC.
    assert (AA : sin f * sin f = Rabs (sin f) * Rabs (sin f)) by (rewrite <- Rabs_mult; symmetry; apply Rabs_right; pose proof (Rle_0_sqr (sin f)); unfold Rsqr in *; lra).
    assert (KEY : rp * sin alpha = w * Rabs (sin f)).
    { apply Rmult_eq_reg_l with (w * Rabs (sin f) * (w * cos f)); [|apply Rgt_not_eq; apply Rmult_lt_0_compat; [apply Rmult_lt_0_compat; assumption|assumption]].
      transitivity (- (w * Rabs (sin f) * (w * cos f * rp) * (0 * cos alpha - 1 * sin alpha))); [ring|]. rewrite AC, AA. ring. }
    assert (RR2 : r * r = rp * cos alpha * (rp * cos alpha)).
    { replace (r * r) with (rp * rp - w * w * (sin f * sin f)) by lra. rewrite AA. replace (w * w * (Rabs (sin f) * Rabs (sin f))) with (w * Rabs (sin f) * (w * Rabs (sin f))) by ring. rewrite <- KEY.
      transitivity (rp * rp * (1 - sin alpha * sin alpha)); [ring|]. replace (1 - sin alpha * sin alpha) with (cos alpha * cos alpha) by lra. ring. }
    apply Rsqr_inj; [exact RN|apply Rmult_le_pos; lra|exact RR2].
Qed.
Example C95_base_radius_example : exists t, 0 < t <= PI /\ base_solution 10 (apex_dist 10 (PI / 4)) t (10 * cos (PI / 9)) /\ pressure_met (apex_dist 10 (PI / 4)) t (10 * cos (PI / 9)) (PI / 9).
Proof. pose proof PI_RGT_0. apply (C95_base_radius 10 (PI / 4) (PI / 9)); lra. Qed.
Example C95_involute_cone_example : exists ts t conn f, cone_involute_tooth ts 10 (PI / 9) (1 / 10) (PI / 2) = new_chain true (map Prim [conn; f]) /\
  0 < t /\ c_fun f t = circle_pt 10 (- (1 / 10)) /\ forall u, on_cone_sphere 10 (PI / 4) (c_fun f u).
Proof.
  pose proof PI_RGT_0. destruct C95_base_radius_example as (t & T & BS & _).
  set (ts := mkTs (fun _ _ _ _ _ => (true, 0, 0)) (fun _ _ _ _ _ => (true, 1)) (fun _ x => x) (fun _ x => (0, x)) (fun _ _ _ => (t, 10 * cos (PI / 9)))).
  pose proof (C95_involute_cone ts 10 (PI / 9) (1 / 10) (PI / 2) ltac:(lra) ltac:(lra) ltac:(lra)) as K. cbv zeta in K. replace (PI / 2 / 2) with (PI / 4) in K by field.
  destruct (K BS) as (conn & f & E & P & SPH). exists ts, t, conn, f. split; [exact E|]. split; [lra|]. split; [exact P|exact SPH].
Qed.
