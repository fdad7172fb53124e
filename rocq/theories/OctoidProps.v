(** Property C95: bevel flanks pass through the pitch point and lie on the sphere of the pitch cone.
    Property C96: the octoid flank and the flat crown rack roll on each other. *)
From Coq Require Import Nsatz Reals Lra Psatz List Bool.
From Coquelicot Require Import Coquelicot.
From Verif Require Import Num Vec Transform Params Coords CoordsProps Gen GenProps GenDiffProps Interp Curve CurveLem CurveProps
  ArcLem ArcProps Chain GearLem MeshDistProps Profile Tooth Cycloid Teeth RackConjProps.
Import ListNotations.
Open Scope R_scope.

(** The pitch cone of half angle [g] through the pitch circle of radius [rp]: its apex and slant height. *)
Definition pitch_apex (rp g : R) : vec := smul (rp / tan g) OUT.
Definition slant (rp g : R) : R := rp / sin g.

(** A point of the crown wheel (centre ORIGIN, axis z, pitch radius the slant height) placed so that its pitch plane
    touches the pitch cone along the line through the apex and the pitch point. *)
Definition crown_to_gear (rp g : R) (p : vec) : vec := vadd (mapp (roty (PI / 2 - g)) p) (pitch_apex rp g).
Definition gear_to_crown (rp g : R) (p : vec) : vec := mapp (roty (- (PI / 2 - g))) (vsub p (pitch_apex rp g)).

Record bevel (rp g alpha : R) : Prop := { bv_rp : 0 < rp; bv_g : 0 < g < PI / 2; bv_alpha : 0 < alpha < PI / 2 }.

Lemma crown_gear rp g p : gear_to_crown rp g (crown_to_gear rp g p) = p.
Proof.
  unfold gear_to_crown, crown_to_gear. generalize (pitch_apex rp g) (PI / 2 - g). intros a b.
  pose proof (sc1 b) as S. clear - S. destruct p as [x y z], a as [k l m]. apply vec_eq; vec_simpl; rewrite ?cos_neg, ?sin_neg;
  generalize dependent (cos b); generalize (sin b); intros; nsatz.
Qed.

Lemma gear_crown rp g p : crown_to_gear rp g (gear_to_crown rp g p) = p.
Proof.
  unfold gear_to_crown, crown_to_gear. generalize (pitch_apex rp g) (PI / 2 - g). intros a b.
  pose proof (sc1 b) as S. clear - S. destruct p as [x y z], a as [k l m]. apply vec_eq; vec_simpl; rewrite ?cos_neg, ?sin_neg;
  generalize dependent (cos b); generalize (sin b); intros; nsatz.
Qed.

(** The pitch point of the crown wheel is put on the pitch point of the gear. *)
Lemma crown_pitch_point rp g : 0 < g < PI / 2 -> crown_to_gear rp g (smul (slant rp g) RIGHT) = pitch_point rp.
Proof.
  intros G. assert (S : 0 < sin g) by (apply sin_gt_0; lra). assert (C : 0 < cos g) by (apply cos_gt_0; lra).
  unfold crown_to_gear, slant, pitch_apex, pitch_point, tan.
  apply vec_eq; vec_simpl; rewrite ?cos_shift, ?sin_shift; field; lra.
Qed.

Lemma sphere_R_slant rp cone : 0 < rp -> 0 < cone / 2 < PI -> sphere_R rp cone = slant rp (cone / 2).
Proof.
  intros R0 G. assert (S : 0 < sin (cone / 2)) by (apply sin_gt_0; lra). unfold sphere_R, slant.
  apply Rabs_right, Rle_ge, Rlt_le, Rdiv_lt_0_compat; assumption.
Qed.
Lemma slant_pos rp g : 0 < rp -> 0 < g < PI -> rp <= slant rp g /\ 0 < slant rp g.
Proof.
  intros R0 G. assert (S : 0 < sin g) by (apply sin_gt_0; lra). unfold slant.
  assert (P : 0 < rp / sin g) by (apply Rdiv_lt_0_compat; assumption). split; [|exact P].
  assert (E : rp = rp / sin g * sin g) by (field; lra). rewrite E at 1. pose proof (SIN_bound g).
  rewrite <- (Rmult_1_r (rp / sin g)) at 2. apply Rmult_le_compat_l; lra.
Qed.
Lemma slant_half rp g : 0 < rp -> 0 < g < PI / 2 -> asin (rp / slant rp g) = g /\
  sqrt (slant rp g * slant rp g - rp * rp) = rp / tan g.
Proof.
  intros R0 G. assert (S : 0 < sin g) by (apply sin_gt_0; lra). assert (C : 0 < cos g) by (apply cos_gt_0; lra).
  pose proof (slant_pos rp g R0 ltac:(lra)) as (L & P). split.
  - replace (rp / slant rp g) with (sin g) by (unfold slant; field; lra). apply asin_sin; lra.
  - assert (T : 0 < rp / tan g) by (unfold tan; apply Rdiv_lt_0_compat; [|apply Rdiv_lt_0_compat]; assumption).
    replace (slant rp g * slant rp g - rp * rp) with (rp / tan g * (rp / tan g)).
    + apply sqrt_square. lra.
    + unfold slant, tan. pose proof (sc1 g) as E.
      transitivity (rp * rp * (1 - sin g * sin g) / (sin g * sin g)); [|field; lra].
      replace (1 - sin g * sin g) with (cos g * cos g) by lra. field. lra.
Qed.

(** ** Octoid flank *)
(** The point of the great circle with pole [n] nearest to the pitch point, in the crown wheel's frame. *)
Definition pole (alpha psi : R) : vec := mapp (rotz psi) (V 0 (- cos alpha) (sin alpha)).
Definition foot (RR : R) (n : vec) : vec :=
  smul (RR / sqrt (1 - dot RIGHT n * dot RIGHT n)) (vsub RIGHT (smul (dot RIGHT n) n)).

Lemma octoid_fun rp alpha pia cone t :
  c_fun (cone_octoid_curve rp alpha pia cone) t = octoid t rp (1 / (1 / sphere_R rp cone)) alpha (- pia) ORIGIN 0.
Proof. reflexivity. Qed.
Lemma octoid_flank_fun ts rp alpha pia cone t : cone <> 0 ->
  c_fun (octoid_flank ts rp alpha pia cone) t = octoid t rp (1 / (1 / sphere_R rp cone)) alpha (- pia) ORIGIN 0.
Proof. intros N. unfold octoid_flank. destruct (Req_EM_T cone 0); [contradiction|]. reflexivity. Qed.

Lemma turned_octoid rp g alpha pia t : bevel rp g alpha ->
  turned (pia - t) (octoid t rp (slant rp g) alpha (- pia) ORIGIN 0) =
  crown_to_gear rp g (foot (slant rp g) (pole alpha (- t * sin g))).
Proof.
  intros [R0 G A]. destruct (slant_half rp g R0 G) as (B & Z). unfold octoid. cbv zeta. rewrite B, Z.
  unfold crown_to_gear, foot, turned, pitch_apex.
  replace (dot RIGHT (pole alpha (- t * sin g))) with (- cos alpha * sin (t * sin g)).
  2:{ unfold pole. replace (- t * sin g) with (- (t * sin g)) by ring. vec_simpl. rewrite cos_neg, sin_neg. ring. }
  unfold pole. replace (- t * sin g) with (- (t * sin g)) by ring.
  pose proof (sc1 (t * sin g)) as X. pose proof (sc1 alpha) as Y. pose proof (sc1 t) as T.
  replace (1 - - cos alpha * sin (t * sin g) * (- cos alpha * sin (t * sin g)))
    with (sin alpha * sin alpha * (sin (t * sin g) * sin (t * sin g)) + cos (t * sin g) * cos (t * sin g)).
  2:{ clear - X Y. generalize dependent (sin (t * sin g)); generalize (cos (t * sin g)).
      generalize dependent (sin alpha); generalize (cos alpha). intros; nsatz. }
  set (Q := sqrt (sin alpha * sin alpha * (sin (t * sin g) * sin (t * sin g)) + cos (t * sin g) * cos (t * sin g))).
  replace (- slant rp g / Q) with (- (slant rp g / Q)) by (unfold Rdiv; ring).
  generalize (slant rp g / Q) (rp / tan g). clear Q.
  intros k h. generalize dependent (t * sin g). intros b X. clear - X Y T.
  replace (PI / 2 + - pia) with (PI / 2 - pia) by ring.
  assert (E : forall v, mapp (rotz (pia - t)) (vadd (mapp (mmul (rotz (PI / 2 - pia)) (roty PI)) v) (smul h OUT)) =
    vadd (V (- sin t * vx v - cos t * vy v) (- cos t * vx v + sin t * vy v) (- vz v)) (smul h OUT)).
  { intros v. transitivity (vadd (mapp (rotz (PI / 2 - t)) (mapp (roty PI) v)) (smul h OUT)).
    - replace (PI / 2 - t) with (pia - t + (PI / 2 - pia)) by ring. rewrite <- rotz_plus. vec_ring.
    - destruct v as [x y z]. apply vec_eq; vec_simpl; rewrite ?cos_PI, ?sin_PI, ?cos_shift, ?sin_shift; ring. }
  rewrite E. clear E. apply vec_eq; vec_simpl; rewrite ?cos_neg, ?sin_neg, ?cos_shift, ?sin_shift;
  generalize dependent (sin t); generalize (cos t); generalize dependent (sin b); generalize (cos b);
  generalize dependent (sin alpha); generalize (cos alpha); generalize (sin g) (cos g); intros; nsatz.
Qed.

(** The rack flank of a bevel gear is an arc of the great circle with that pole. *)
Lemma cone_rack_eval rp g alpha pia lm u : bevel rp g alpha ->
  c_eval (cone_flat_rack rp pia alpha (2 * g) lm) u =
  mapp (rotz (- pia * sin g)) (mapp (rotx (PI / 2 - alpha))
    (mapp (rotz ((u * (lm_ha lm + lm_hd lm) - lm_hd lm) / slant rp g / cos alpha)) (smul (slant rp g) RIGHT))).
Proof.
  intros [R0 G A]. unfold cone_flat_rack.
  assert (E : 2 * g / 2 = g) by field.
  rewrite (sphere_R_slant rp (2 * g)) by lra. rewrite E.
  destruct (slant_pos rp g R0 ltac:(lra)) as (L & P). assert (S : 0 < sin g) by (apply sin_gt_0; lra).
  assert (C : 0 < cos alpha) by (apply cos_gt_0; lra).
  set (RR := slant rp g) in *. replace (- pia * rp / RR) with (- pia * sin g) by (unfold RR, slant; field; lra).
  match goal with |- c_eval ?c u = _ => assert (T : s2t c u = u) end.
  { exact (arc_new_s2t RR 0 ORIGIN UNIT3X3 true u). }
  unfold c_eval. rewrite T. cbn [c_fun c_shape shape_fun]. unfold c_fun. cbn [c_shape shape_fun].
  rewrite vadd_0_r, !mapp_mmul.
  replace ((u * (lm_ha lm + lm_hd lm) - lm_hd lm) / RR / cos alpha) with
    (- lm_hd lm / RR / cos alpha + (lm_ha lm + lm_hd lm) / RR / cos alpha * u) by (field; lra).
  rewrite <- rotz_plus, mapp_mmul. f_equal. f_equal.
  generalize (mapp (rotz ((lm_ha lm + lm_hd lm) / RR / cos alpha * u)) (smul RR RIGHT)) (- lm_hd lm / RR / cos alpha).
  intros v a. unfold euler_zyx. clear. destruct v as [x y z]. apply vec_eq; vec_simpl; rewrite ?cos_0, ?sin_0; ring.
Qed.

(** All points of the flank of the crown rack, turned with the rack, are in the plane with normal [pole]. *)
Lemma rack_in_plane rp g alpha pia lm sigma u : bevel rp g alpha ->
  dot (pole alpha ((sigma - pia) * sin g)) (mapp (rotz (sigma * sin g)) (c_eval (cone_flat_rack rp pia alpha (2 * g) lm) u)) = 0.
Proof.
  intros B. rewrite cone_rack_eval by exact B. rewrite <- mapp_mmul, rotz_plus.
  replace (sigma * sin g + - pia * sin g) with ((sigma - pia) * sin g) by ring. unfold pole.
  rewrite orthogonal_dot by apply rotation_rotz. vec_simpl. rewrite cos_shift, sin_shift. ring.
Qed.

(** C96: when the gear has turned by [pia - t] and the crown rack in the ratio of the pitch radii, the point [t] of the
    octoid flank is on the rack flank, and the great circle from it to the pitch point meets the flank at a right angle. *)
Theorem C96_touches ts rp g alpha pia lm t : bevel rp g alpha -> 0 < lm_ha lm + lm_hd lm ->
  let tau := pia - t in
  let X := gear_to_crown rp g (turned tau (c_fun (octoid_flank ts rp alpha pia (2 * g)) t)) in
  (exists u, X = mapp (rotz (tau * rp / slant rp g)) (c_eval (cone_flat_rack rp pia alpha (2 * g) lm) u)) /\
  exists k m, X = vadd (smul k RIGHT) (smul m (pole alpha ((tau - pia) * sin g))).
Proof.
  intros B H tau X. pose proof B as [R0 G A]. assert (S : 0 < sin g) by (apply sin_gt_0; lra).
  assert (C : 0 < cos alpha) by (apply cos_gt_0; lra). destruct (slant_pos rp g R0 ltac:(lra)) as (L & P).
  assert (E : X = foot (slant rp g) (pole alpha (- t * sin g))).
  { unfold X, tau. rewrite octoid_flank_fun by lra. rewrite sphere_R_slant by lra.
    replace (2 * g / 2) with g by field. replace (1 / (1 / slant rp g)) with (slant rp g) by (field; lra).
    rewrite turned_octoid by exact B. apply crown_gear. }
  replace ((tau - pia) * sin g) with (- t * sin g) by (unfold tau; ring).
  replace (tau * rp / slant rp g) with (tau * sin g) by (unfold slant; field; lra).
  rewrite E. clear E X. split.
  - set (psi := - t * sin g).
    destruct (arctan2_cos_sin (- (sin psi * sin alpha)) (cos psi)) as (TC & TS).
    set (th := arctan2 (- (sin psi * sin alpha)) (cos psi)) in *.
    exists ((th * slant rp g * cos alpha + lm_hd lm) / (lm_ha lm + lm_hd lm)).
    rewrite cone_rack_eval by exact B.
    replace ((_ * (lm_ha lm + lm_hd lm) - lm_hd lm) / slant rp g / cos alpha) with th by (field; lra).
    rewrite <- mapp_mmul, rotz_plus. replace (tau * sin g + - pia * sin g) with psi by (unfold psi, tau; ring).
    unfold foot, pole.
    assert (D : dot RIGHT (mapp (rotz psi) (V 0 (- cos alpha) (sin alpha))) = sin psi * cos alpha) by (vec_simpl; ring).
    rewrite D. pose proof (sc1 psi) as SP. pose proof (sc1 alpha) as SA.
    replace (1 - sin psi * cos alpha * (sin psi * cos alpha)) with
      (cos psi * cos psi + - (sin psi * sin alpha) * - (sin psi * sin alpha)).
    2:{ clear - SP SA. generalize dependent (sin psi). generalize (cos psi). generalize dependent (sin alpha). generalize (cos alpha).
        intros; nsatz. }
    set (Q := sqrt (cos psi * cos psi + - (sin psi * sin alpha) * - (sin psi * sin alpha))) in *.
    assert (Q0 : Q <> 0).
    { intros Z. rewrite Z, Rmult_0_l in TC, TS. rewrite <- TC in SP. assert (sin alpha <> 0).
      { apply Rgt_not_eq, sin_gt_0; lra. }
      assert (TZ : sin psi * sin alpha = 0) by lra.
      apply Rmult_integral in TZ. destruct TZ as [TZ|TZ]; [rewrite TZ in SP; lra|contradiction]. }
    assert (IQ : / Q * Q = 1) by (apply Rinv_l; exact Q0).
    unfold Rdiv. clear - SP SA TC TS IQ. generalize dependent (/ Q). intros i IQ. clearbody th Q.
    generalize (slant rp g). intros k.
    apply vec_eq; vec_simpl; rewrite ?cos_shift, ?sin_shift;
    generalize dependent (sin psi); generalize dependent (cos psi); generalize dependent (sin alpha);
    generalize dependent (cos alpha); generalize dependent (sin th); generalize dependent (cos th); intros; nsatz.
  - unfold foot. set (n := pole alpha (- t * sin g)). set (j := slant rp g / _). exists j, (- (j * dot RIGHT n)).
    generalize (dot RIGHT n). clearbody j n. clear. intros d. destruct n as [a b c]. vec_ring.
Qed.

(** Height of a gear point above the plane of the rack flank, in the pose [sigma]. *)
Definition gap_to_rack (rp g alpha pia sigma : R) (p : vec) : R :=
  dot (pole alpha ((sigma - pia) * sin g)) (gear_to_crown rp g (turned sigma p)).

Lemma gap_turned rp g alpha pia sigma t W :
  gap_to_rack rp g alpha pia sigma (turned (- (pia - t)) (crown_to_gear rp g W)) =
  dot (pole alpha ((sigma - pia) * sin g))
    (mapp (roty (- (PI / 2 - g))) (mapp (rotz (sigma - (pia - t))) (mapp (roty (PI / 2 - g)) W))).
Proof.
  unfold gap_to_rack. f_equal. unfold gear_to_crown, turned. f_equal.
  rewrite <- mapp_mmul, rotz_plus. replace (sigma + - (pia - t)) with (sigma - (pia - t)) by ring.
  unfold crown_to_gear, pitch_apex. generalize (sigma - (pia - t)) (rp / tan g) (mapp (roty (PI / 2 - g)) W). clear. intros b h v.
  destruct v as [x y z]. vec_ring.
Qed.

Lemma flank_back ts rp g alpha pia t : bevel rp g alpha ->
  c_fun (octoid_flank ts rp alpha pia (2 * g)) t =
  turned (- (pia - t)) (crown_to_gear rp g (foot (slant rp g) (pole alpha (- t * sin g)))).
Proof.
  intros B. rewrite <- (turned_octoid rp g alpha pia t B). pose proof B as [R0 G A].
  rewrite octoid_flank_fun by lra. rewrite sphere_R_slant by lra. replace (2 * g / 2) with g by field.
  destruct (slant_pos rp g R0 ltac:(lra)) as (L & P). replace (1 / (1 / slant rp g)) with (slant rp g) by (field; lra).
  unfold turned. rewrite <- mapp_mmul, rotz_plus. replace (- (pia - t) + (pia - t)) with 0 by ring.
  rewrite rotz_0, mapp_I. reflexivity.
Qed.

(** C96: the law of gearing: in the pose of contact the flank point has no velocity across the rack flank. *)
Theorem C96_law ts rp g alpha pia t : bevel rp g alpha ->
  let p := c_fun (octoid_flank ts rp alpha pia (2 * g)) t in
  gap_to_rack rp g alpha pia (pia - t) p = 0 /\
  is_derive (fun sigma => gap_to_rack rp g alpha pia sigma p) (pia - t) 0.
Proof.
  intros B p. unfold p. rewrite flank_back by exact B. pose proof (sc1 (t * sin g)) as X. pose proof (sc1 alpha) as Y. pose proof (sc1 g) as Z.
  unfold foot. generalize (slant rp g / sqrt (1 - dot RIGHT (pole alpha (- t * sin g)) * dot RIGHT (pole alpha (- t * sin g)))). intros k.
  split.
  - rewrite gap_turned. replace (pia - t - (pia - t)) with 0 by ring. replace ((pia - t - pia) * sin g) with (- (t * sin g)) by ring.
    unfold pole. replace (- t * sin g) with (- (t * sin g)) by ring.
    vec_simpl. rewrite ?cos_neg, ?sin_neg, ?cos_shift, ?sin_shift, ?cos_0, ?sin_0.
    generalize dependent (sin (t * sin g)). generalize (cos (t * sin g)). generalize dependent (sin alpha). generalize (cos alpha).
    generalize dependent (sin g). generalize (cos g). clear. intros; nsatz.
  - apply (is_derive_ext (fun sigma : R => dot (pole alpha ((sigma - pia) * sin g))
      (mapp (roty (- (PI / 2 - g))) (mapp (rotz (sigma - (pia - t))) (mapp (roty (PI / 2 - g))
        (smul k (vsub RIGHT (smul (dot RIGHT (pole alpha (- t * sin g))) (pole alpha (- t * sin g)))))))))).
    { intros s. symmetry. apply gap_turned. }
    unfold pole. replace (- t * sin g) with (- (t * sin g)) by ring. vec_simpl.
    rewrite ?cos_neg, ?sin_neg, ?cos_shift, ?sin_shift. auto_derive; [repeat split|].
    replace (pia - t + - (pia - t)) with 0 by ring. replace ((pia - t + - pia) * sin g) with (- (t * sin g)) by ring.
    rewrite ?cos_neg, ?sin_neg, ?cos_0, ?sin_0. 
    generalize dependent (sin (t * sin g)). generalize (cos (t * sin g)). generalize dependent (sin alpha). generalize (cos alpha).
    generalize dependent (sin g). generalize (cos g). clear. intros. eqR. match goal with |- ?a = _ => ring_simplify a end; cbn [pow]; nsatz.
Qed.

(** C96: the flank and the rack flank have the same tangent plane there: near the point of contact the flank leaves the
    plane of the rack flank only in second order. *)
Theorem C96_tangent ts rp g alpha pia t : bevel rp g alpha ->
  is_derive (fun x => gap_to_rack rp g alpha pia (pia - t) (c_fun (octoid_flank ts rp alpha pia (2 * g)) x)) t 0.
Proof.
  intros B. pose proof B as [R0 G A].
  set (h := fun x : R => dot (pole alpha (- t * sin g)) (mapp (roty (- (PI / 2 - g))) (mapp (rotz (x - t)) (mapp (roty (PI / 2 - g))
     (vsub RIGHT (smul (dot RIGHT (pole alpha (- x * sin g))) (pole alpha (- x * sin g)))))))).
  set (q := fun x : R => slant rp g / sqrt (1 - (cos alpha * sin (x * sin g)) * (cos alpha * sin (x * sin g)))).
  assert (QP : forall x, 0 < 1 - (cos alpha * sin (x * sin g)) * (cos alpha * sin (x * sin g))).
  { intros x. assert (SA : 0 < sin alpha) by (apply sin_gt_0; lra). pose proof (sc1 alpha). pose proof (sc1 (x * sin g)).
    assert (0 < sin alpha * sin alpha) by (apply Rmult_lt_0_compat; lra).
    assert (0 <= cos (x * sin g) * cos (x * sin g)) by apply Rle_0_sqr.
    assert (0 <= cos alpha * cos alpha) by apply Rle_0_sqr.
    assert (0 <= cos alpha * cos alpha * (cos (x * sin g) * cos (x * sin g))) by (apply Rmult_le_pos; assumption).
    replace (cos alpha * sin (x * sin g) * (cos alpha * sin (x * sin g))) with
      (cos alpha * cos alpha * (1 - cos (x * sin g) * cos (x * sin g))) by (rewrite <- H0; ring). lra. }
  apply (is_derive_ext (fun x : R => q x * h x)).
  { intros x. rewrite flank_back by exact B. rewrite gap_turned. unfold foot, q, h.
    replace (dot RIGHT (pole alpha (- x * sin g)) * dot RIGHT (pole alpha (- x * sin g))) with
      ((cos alpha * sin (x * sin g)) * (cos alpha * sin (x * sin g))).
    2:{ unfold pole. replace (- x * sin g) with (- (x * sin g)) by ring. vec_simpl. rewrite ?cos_neg, ?sin_neg. ring. }
    replace ((pia - t - pia) * sin g) with (- t * sin g) by ring. replace (pia - t - (pia - x)) with (x - t) by ring.
    generalize (slant rp g / sqrt (1 - cos alpha * sin (x * sin g) * (cos alpha * sin (x * sin g)))) (pole alpha (- t * sin g))
      (vsub RIGHT (smul (dot RIGHT (pole alpha (- x * sin g))) (pole alpha (- x * sin g)))) (x - t) (PI / 2 - g).
    clear. intros k n v b c. destruct n as [n1 n2 n3], v as [v1 v2 v3]. eqR. vec_simpl. ring. }
  pose proof (sc1 (t * sin g)) as X. pose proof (sc1 alpha) as Y. pose proof (sc1 g) as Z.
  assert (H0 : h t = 0).
  { unfold h, pole. replace (t - t) with 0 by ring. replace (- t * sin g) with (- (t * sin g)) by ring.
    vec_simpl. rewrite ?cos_neg, ?sin_neg, ?cos_shift, ?sin_shift, ?cos_0, ?sin_0.
    generalize dependent (sin (t * sin g)). generalize (cos (t * sin g)). generalize dependent (sin alpha). generalize (cos alpha).
    generalize dependent (sin g). generalize (cos g). clear. intros; nsatz. }
  assert (H1 : is_derive h t 0).
  { unfold h, pole. vec_simpl. rewrite ?cos_neg, ?sin_neg, ?cos_shift, ?sin_shift. auto_derive; [repeat split|].
    replace (t + - t) with 0 by ring. replace (- t * sin g) with (- (t * sin g)) by ring.
    rewrite ?cos_neg, ?sin_neg, ?cos_0, ?sin_0.
    generalize dependent (sin (t * sin g)). generalize (cos (t * sin g)). generalize dependent (sin alpha). generalize (cos alpha).
    generalize dependent (sin g). generalize (cos g). clear. intros. eqR. match goal with |- ?a = _ => ring_simplify a end; cbn [pow]; nsatz. }
  assert (H2 : ex_derive q t).
  { unfold q. auto_derive. specialize (QP t). split; [exact QP|]. split; [|exact I].
    apply Rgt_not_eq, sqrt_lt_R0. exact QP. }
  destruct H2 as (dq & H2). evar_last; [apply (is_derive_mult q h t dq 0 H2 H1); intros; apply Rmult_comm|].
  rewrite H0. unfold plus, mult; cbn. eqR. ring.
Qed.
