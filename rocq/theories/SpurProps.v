(** Property C105: the trimmed flank of an involute spur gear is the involute between the root and the tip circle. *)
From Coq Require Import Nsatz Reals List ZArith Lra Lia Psatz Bool.
From Verif Require Import Num Vec Transform TransformProps Params ParamsProps Coords CoordsProps Gen GenProps Interp Curve CurveLem
  CurveProps ArcLem ArcProps Chain ChainLem ChainProps GearLem GearMath MeshDistProps Tooth Wrapper RefLines RefLinesProps
  Profile ProfileLem ProfileProps Fillet FilletProps FlankProps ReduceProps Teeth RackConjProps UndercutProps RisingLem Report ReportProps.
Import ListNotations.
Open Scope R_scope.

(** ** Specification *)
(** Squared distance from the axis. *)
Definition rad2 (p : vec) : R := vx p * vx p + vy p * vy p.
(** Polar angle of the involute flank at the distance [r] from the axis: the involute function of the pressure angle
    there, less its value at the pitch circle, less half the tooth's angle on the pitch circle; below the base circle the
    flank is radial. *)
Definition flank_angle (rp alpha pia r : R) : R := inv (acos (Rmin 1 (rp * cos alpha / r))) - inv alpha - pia.
Definition flank_point (rp alpha pia r : R) : vec := circle_pt r (flank_angle rp alpha pia r).

(** A gear whose teeth have a land at the tip circle and a gap at the root circle. *)
Record spur (rp alpha pia ha hd pitch : R) : Prop := {
  sp_rp : 0 < rp; sp_alpha : 0 < alpha < PI / 2; sp_inv : inv alpha <= PI; sp_pitch : 0 < pitch < PI;
  sp_root : 0 < rp - hd; sp_h : 0 < ha + hd; sp_base : rp - hd <> rp * cos alpha;
  sp_gap : - (pitch / 2) < flank_angle rp alpha pia (rp - hd);
  sp_land : flank_angle rp alpha pia (rp + ha) < 0 }.

(** The end of the involute that the tooth generator looked for lies on the curve. *)
Definition top_found (ts : tsolver) (rp alpha pia : R) : Prop :=
  let s2 := snd (fst (ts_meet ts EQUALITY (Prim (involute_curve0 rp alpha)) (pitch_circle rp) (/ 2) 0)) in
  0 < snd (ts_plane ts EQUALITY (Prim (involute_curve1 rp alpha pia s2)) UP ORIGIN 1) <= 1.
(** The crossings of the flank with the tip circle and of the cut flank with the root circle are found. *)
Definition tip_found (sv : solver) (n : node) (ra : curve) (pitch : R) : Prop := exists x0 x1,
  sv_meet sv EQUALITY n ra (9 / 10) (- pitch / 8 / c_length ra) = (true, x0, x1) /\ 0 < x0 <= 1 /\ meets n x0 ra x1.
Definition root_found (sv : solver) (n : node) (rd : curve) (pitch : R) : Prop := exists x0 x1,
  sv_meet sv EQUALITY n rd (3 / 10) (- pitch / 2 / c_length rd) = (true, x0, x1) /\ 0 <= x0 < 1 /\ meets n x0 rd x1.

(** ** Lemmas *)
Lemma rad2_circle r a : rad2 (circle_pt r a) = r * r.
Proof. unfold rad2, circle_pt. cbn [vx vy]. pose proof (sc1 a). nsatz. Qed.

Lemma sq_lt a b : 0 < a -> 0 < b -> a * a < b * b -> a < b.
Proof. intros A B H. apply Rsqr_incrst_0; try lra. exact H. Qed.
Lemma sq_eq a b : 0 < a -> 0 < b -> a * a = b * b -> a = b.
Proof. intros A B H. apply Rsqr_inj; try lra. exact H. Qed.

Lemma pressure_cos rb t : 0 < rb -> 0 <= t ->
  let a := atan t in 0 <= a < PI / 2 /\ 0 < cos a /\ tan a = t /\ rb * sqrt (1 + t * t) = rb / cos a.
Proof.
  intros B T a. assert (A : 0 <= a < PI / 2).
  { split; [|apply atan_bound]. destruct T as [T|<-]; [left; rewrite <- atan_0; apply atan_increasing, T|unfold a; rewrite atan_0; lra]. }
  assert (C : 0 < cos a) by (apply cos_gt_0; lra).
  assert (E : tan a = t) by apply tan_atan.
  repeat split; try lra; try apply A.
  assert (S : sqrt (1 + t * t) = / cos a).
  { rewrite <- (sqrt_square (/ cos a)) by (left; apply Rinv_0_lt_compat, C). f_equal. rewrite <- E. unfold tan.
    pose proof (sc1 a) as S. replace (1 + sin a / cos a * (sin a / cos a)) with ((sin a * sin a + cos a * cos a) / (cos a * cos a)) by (field; lra).
    rewrite S. field. lra. }
  rewrite S. reflexivity.
Qed.

Lemma flank_low rp alpha pia r : 0 < rp -> 0 < cos alpha -> 0 < r <= rp * cos alpha ->
  flank_angle rp alpha pia r = - (pia + inv alpha).
Proof.
  intros P C H. unfold flank_angle. rewrite Rmin_left.
  - rewrite acos_1, inv_0. ring.
  - apply Rmult_le_reg_r with r; [lra|]. unfold Rdiv. rewrite Rmult_assoc, Rinv_l by lra. lra.
Qed.

Lemma flank_high rp alpha pia t : 0 < rp -> 0 < cos alpha -> 0 <= t ->
  let rb := rp * cos alpha in
  involute_circle t rb (- (pia + inv alpha)) ORIGIN 0 = flank_point rp alpha pia (rb * sqrt (1 + t * t)).
Proof.
  intros P C T rb. assert (B : 0 < rb) by (apply Rmult_lt_0_compat; assumption).
  destruct (pressure_cos rb t B T) as (A & CA & TA & ->). set (a := atan t) in *.
  rewrite <- TA at 1. unfold flank_point, flank_angle. fold rb.
  replace (rb / (rb / cos a)) with (cos a) by (field; lra). rewrite Rmin_right by apply COS_bound.
  rewrite acos_cos by lra. replace rb with (rb / cos a * cos a) at 1 by (field; lra).
  rewrite involute_on_pitch by lra. f_equal. ring.
Qed.

Lemma flank_rising t r rb a : 0 < rb -> 0 <= t -> t < r ->
  rad2 (involute_circle t rb a ORIGIN 0) < rad2 (involute_circle r rb a ORIGIN 0).
Proof.
  intros B T L. assert (E : forall u, rad2 (involute_circle u rb a ORIGIN 0) = rb * rb * (1 + u * u)).
  { intros u. unfold rad2, involute_circle. vec_simpl. pose proof (sc1 (u + a)) as S. generalize dependent (sin (u + a)). intros k S.
    generalize dependent (cos (u + a)). intros c S. rewrite ?sin_0, ?cos_0. nsatz. }
  rewrite !E. apply Rmult_lt_compat_l; [apply Rmult_lt_0_compat; exact B|]. assert (0 < (r - t) * (r + t)) by (apply Rmult_lt_0_compat; lra). lra.
Qed.

Definition on_flank (rp alpha pia : R) (p : vec) : Prop := exists r, rp * cos alpha / 2 <= r /\ p = flank_point rp alpha pia r.

Lemma tooth_rising ts rp alpha pia : 0 < rp -> 0 < alpha < PI / 2 -> inv alpha <= PI -> solved ts rp alpha -> top_found ts rp alpha pia ->
  let t := plane_involute_tooth ts rp alpha pia in
  rising_node rad2 t /\ within (on_flank rp alpha pia) t /\
  exists c0 c1, leaves t = [c0; c1] /\ c_eval c0 1 = flank_point rp alpha pia (rp * cos alpha) /\
    c_t0 c0 = 0 /\ c_t1 c0 = 1 /\ (forall x, c_fun c0 x = circle_pt (rp * cos alpha * (1 + x) / 2) (- (pia + inv alpha))) /\
    c1 = plane_involute_flank ts rp alpha pia /\ c_t0 c1 = 0 /\
    (forall x, c_fun c1 x = involute_circle x (rp * cos alpha) (- (pia + inv alpha)) ORIGIN 0).
Proof.
  intros P A I S T. cbv zeta. unfold solved, top_found in *. unfold plane_involute_tooth, plane_involute_flank.
  destruct (ts_meet ts EQUALITY _ _ _ _) as [[ok s2] x1]. cbn [fst snd] in *.
  set (s1 := snd _) in *. assert (C : 0 < cos alpha) by (apply cos_gt_0; lra).
  set (rb := rp * cos alpha). assert (B : 0 < rb) by (apply Rmult_lt_0_compat; assumption).
  destruct (involute_tooth_usable rp alpha pia s2 s1 P C) as (l & E & U & J & L). rewrite E.
  set (f := involute_flank rp alpha pia s2 s1) in *.
  assert (BA : base_angle rp alpha pia s2 = - (pia + inv alpha)).
  { unfold inv. apply C42_tooth_base_angle; assumption || lra. }
  assert (FF : forall t, c_fun f t = involute_circle t rb (- (pia + inv alpha)) ORIGIN 0).
  { intros t. unfold f, involute_flank. rewrite <- BA. reflexivity. }
  assert (R0 : rising rad2 (involute_curve0 rp alpha)).
  { split.
    - apply new_fresh.
    - apply NDIV_2.
    - reflexivity.
    - left. eexists. reflexivity.
    - cbn. lra.
    - intros t t' T0 T1 _. rewrite !involute0_fun. change (c_t0 (involute_curve0 rp alpha)) with 0 in T0. apply flank_rising; assumption. }
  assert (D : 0 < c_t1 f).
  { change (c_t1 f) with (s2t (involute_curve0 rp alpha) s1). destruct (rising_ends rad2 _ R0) as (E0 & _).
    change (c_t0 (involute_curve0 rp alpha)) with 0 in E0. rewrite <- E0. apply (rising_mono rad2); try assumption; lra. }
  assert (RF : rising rad2 f).
  { split.
    - apply set_end_fresh.
    - apply NDIV_2.
    - reflexivity.
    - left. eexists. reflexivity.
    - exact D.
    - intros t t' T0 T1 _. rewrite !FF. change (c_t0 f) with 0 in T0. apply flank_rising; assumption. }
  assert (E0 : c_eval f 0 = circle_pt rb (- (pia + inv alpha))).
  { rewrite fresh_start by (apply (ri_fresh _ _ RF) || apply (ri_ndiv _ _ RF)). change (c_t0 f) with 0. rewrite FF. apply C23_start. }
  set (ln := line_curve (smul (/ 2) (c_eval f 0)) (c_eval f 0) true) in *.
  assert (FL : forall t, c_fun ln t = circle_pt (rb * (1 + t) / 2) (- (pia + inv alpha))).
  { intros t. unfold ln. change (c_fun (line_curve (smul (/ 2) (c_eval f 0)) (c_eval f 0) true) t)
      with (vadd (smul (1 - t) (smul (/ 2) (c_eval f 0))) (smul t (c_eval f 0))). rewrite E0.
    unfold circle_pt. apply vec_eq; vec_simpl; lra. }
  assert (RL : rising rad2 ln).
  { split.
    - apply new_fresh.
    - apply NDIV_2.
    - reflexivity.
    - right. do 2 eexists. reflexivity.
    - cbn. lra.
    - intros t t' T0 T1 _. rewrite !FL, !rad2_circle. change (c_t0 ln) with 0 in T0.
      assert (0 < rb * (t' - t)) by (apply Rmult_lt_0_compat; lra). assert (0 <= rb * t) by (apply Rmult_le_pos; lra).
      apply Rmult_le_0_lt_compat; lra. }
  split; [|split].
  - split; [exact (proj1 U)| |exact J]. rewrite L. constructor; [exact RL|constructor; [exact RF|constructor]].
  - unfold within. rewrite L. constructor; [|constructor; [|constructor]].
    + intros t T0. change (c_t0 ln) with 0 in T0. change (c_t1 ln) with 1 in T0. rewrite FL. exists (rb * (1 + t) / 2).
      assert (0 <= rb * t <= rb). { split; [apply Rmult_le_pos; lra|]. rewrite <- (Rmult_1_r rb) at 2. apply Rmult_le_compat_l; lra. }
      split; [fold rb; lra|]. unfold flank_point. rewrite flank_low; [reflexivity|exact P|exact C|fold rb; lra].
    + intros t T0. change (c_t0 f) with 0 in T0. rewrite FF. exists (rb * sqrt (1 + t * t)). split.
      * fold rb. assert (1 <= sqrt (1 + t * t)) by (rewrite <- sqrt_1 at 1; apply sqrt_le_1_alt; assert (0 <= t * t) by (apply Rmult_le_pos; lra); lra).
        assert (rb * 1 <= rb * sqrt (1 + t * t)) by (apply Rmult_le_compat_l; lra). lra.
      * apply flank_high; [exact P|exact C|lra].
  - exists ln, f. split; [exact L|]. split; [|repeat split; [exact FL|exact FF]]. unfold ln. rewrite line_eval. unfold flank_point. rewrite flank_low; [|exact P|exact C|fold rb; lra].
    fold rb. rewrite E0. unfold circle_pt. apply vec_eq; vec_simpl; lra.
Qed.

Lemma pressure_range rp alpha r : 0 < rp -> 0 < cos alpha -> 0 < r ->
  let a := acos (Rmin 1 (rp * cos alpha / r)) in 0 <= a < PI / 2 /\ cos a = Rmin 1 (rp * cos alpha / r).
Proof.
  intros P C R a. assert (B : 0 < rp * cos alpha / r).
  { apply Rmult_lt_0_compat; [apply Rmult_lt_0_compat; assumption|apply Rinv_0_lt_compat, R]. }
  assert (M : 0 < Rmin 1 (rp * cos alpha / r) <= 1) by (split; [apply Rmin_glb_lt; lra|apply Rmin_l]).
  assert (E : cos a = Rmin 1 (rp * cos alpha / r)) by (apply cos_acos; lra).
  pose proof (acos_bound (Rmin 1 (rp * cos alpha / r))) as BD. fold a in BD. split; [|exact E]. split; [lra|].
  destruct (Rlt_le_dec a (PI / 2)) as [L|L]; [exact L|exfalso].
  assert (cos a <= 0) by (apply cos_le_0; lra). lra.
Qed.

Lemma flank_angle_mono rp alpha pia r r' : 0 < rp -> 0 < cos alpha -> 0 < r -> r <= r' ->
  flank_angle rp alpha pia r <= flank_angle rp alpha pia r' /\
  (r < r' -> rp * cos alpha < r' -> flank_angle rp alpha pia r < flank_angle rp alpha pia r').
Proof.
  intros P C R L. destruct (pressure_range rp alpha r P C R) as (A & CA).
  destruct (pressure_range rp alpha r' P C ltac:(lra)) as (A' & CA').
  unfold flank_angle. set (a := acos _) in *. set (a' := acos (Rmin 1 (_ / r'))) in *.
  assert (B : 0 < rp * cos alpha) by (apply Rmult_lt_0_compat; assumption).
  assert (Q : rp * cos alpha / r' <= rp * cos alpha / r).
  { apply Rmult_le_compat_l; [lra|]. apply Rinv_le_contravar; lra. }
  pose proof PI_RGT_0. split.
  - destruct (Rle_dec a a') as [G|G]; [pose proof (inv_mono a a'); lra|exfalso].
    assert (cos a < cos a') by (apply cos_decreasing_1; lra).
    assert (Rmin 1 (rp * cos alpha / r') <= Rmin 1 (rp * cos alpha / r)) by (apply Rle_min_compat_l, Q). lra.
  - intros LT HB. destruct (Rlt_dec a a') as [G|G]; [pose proof (inv_strict a a'); lra|exfalso].
    assert (X : cos a <= cos a').
    { destruct (Req_dec a a') as [->|N]; [lra|]. left. apply cos_decreasing_1; lra. }
    assert (Q' : rp * cos alpha / r' < rp * cos alpha / r).
    { apply Rmult_lt_compat_l; [lra|]. apply Rinv_lt_contravar; [apply Rmult_lt_0_compat; lra|lra]. }
    assert (rp * cos alpha / r' < 1).
    { apply Rmult_lt_reg_r with r'; [lra|]. unfold Rdiv. rewrite Rmult_assoc, Rinv_l by lra. lra. }
    rewrite CA, CA' in X. rewrite (Rmin_right 1 (rp * cos alpha / r')) in X by lra.
    assert (rp * cos alpha / r' < Rmin 1 (rp * cos alpha / r)) by (apply Rmin_glb_lt; assumption). lra.
Qed.

Lemma flank_point_radius rp alpha pia r r' : 0 < r -> 0 < r' -> rad2 (flank_point rp alpha pia r) = r' * r' -> r = r'.
Proof. intros A B E. unfold flank_point in E. rewrite rad2_circle in E. apply sq_eq; assumption. Qed.

(** The curves of the tooth, cut at the tip, end at the base circle or at the tip. *)
Definition ends_known (rp alpha pia : R) (n : node) : Prop := forall k, In k (leaves n) ->
  c_eval k 1 = n_point n 1 \/ c_eval k 1 = flank_point rp alpha pia (rp * cos alpha).

Lemma tip_cut ts rp alpha pia x : 0 < rp -> 0 < alpha < PI / 2 -> inv alpha <= PI -> solved ts rp alpha -> top_found ts rp alpha pia ->
  0 < x <= 1 -> let n := plane_involute_tooth ts rp alpha pia in
  exists n1, n_set_end false n x = Ok n1 /\ rising_node rad2 n1 /\ within (on_flank rp alpha pia) n1 /\
    n_point n1 1 = n_point n x /\ ends_known rp alpha pia n1.
Proof.
  intros P A I S T X n.
  destruct (tooth_rising ts rp alpha pia P A I S T) as (RN & W & c0 & c1 & L & E0 & _). fold n in RN, W, L.
  destruct (rn_end rad2 _ n x RN W X) as (n1 & EN & RN1 & W1 & S1 & T1 & pre & c & post & uc & LN & LN1 & _ & _ & CE).
  exists n1. split; [exact EN|]. split; [exact RN1|]. split; [exact W1|]. split; [exact T1|].
  intros k IK. rewrite LN1 in IK. apply in_app_iff in IK. destruct IK as [IK|[<-|[]]]; [right|left; exact CE].
  rewrite L in LN. destruct pre as [|d0 [|d1 pre]]; cbn in LN; [destruct IK| |].
  - injection LN as <- _ _. destruct IK as [<-|[]]. exact E0.
  - injection LN as _ _ LN. destruct pre; discriminate LN.
Qed.

Lemma root_cut sv rp alpha pia hd pitch n1 rt rd : 0 < rp -> 0 < cos alpha -> 0 < pitch < PI ->
  0 < rp - hd -> rp - hd < rt -> rp - hd <> rp * cos alpha ->
  - (pitch / 2) < flank_angle rp alpha pia (rp - hd) -> flank_angle rp alpha pia rt <= 0 ->
  rising_node rad2 n1 -> within (on_flank rp alpha pia) n1 -> ends_known rp alpha pia n1 ->
  n_point n1 1 = flank_point rp alpha pia rt -> circle_about_z rd (rp - hd) 0 -> root_found sv n1 rd pitch ->
  exists t, trim_root sv n1 rd 0 pitch = Ok t /\ flank_ok t /\ not_opposite t pitch /\
    n_point t 0 = flank_point rp alpha pia (rp - hd) /\ n_point t 1 = flank_point rp alpha pia rt /\
    (forall s, 0 <= s <= 1 -> exists r, rp - hd <= r <= rt /\ n_point t s = flank_point rp alpha pia r) /\
    (forall s u r r', 0 <= s -> s < u -> u <= 1 -> 0 < r -> 0 < r' ->
       n_point t s = flank_point rp alpha pia r -> n_point t u = flank_point rp alpha pia r' -> r < r').
Proof.
  intros P C PI0 RD H BA GAP LAND RN1 W1 EK T1 (CD & _) (y0 & y1 & SY & Y & MY).
  assert (B : 0 < rp * cos alpha) by (apply Rmult_lt_0_compat; assumption).
  destruct (flank_angle_mono rp alpha pia (rp - hd) rt P C RD ltac:(lra)) as (MO & _).
  assert (PY : n_point n1 y0 = c_eval rd y1) by (unfold n_point, meets in *; rewrite MY; reflexivity).
  assert (RY : rad2 (c_eval rd y1) = (rp - hd) * (rp - hd)).
  { rewrite CD. change (V _ _ _) with (circle_pt (rp - hd) (2 * PI * y1)). apply rad2_circle. }
  assert (QY : c_eval rd y1 = flank_point rp alpha pia (rp - hd)).
  { destruct (rn_within rad2 _ n1 y0 RN1 W1 ltac:(lra)) as (r & Hr & Er). rewrite PY in Er. rewrite Er in RY |- *.
    apply flank_point_radius in RY; [subst; reflexivity|lra|lra]. }
  assert (NJ : forall k, In k (leaves n1) -> n_point n1 y0 <> c_eval k 1).
  { intros k IK E. destruct (EK k IK) as [E1|E1]; rewrite E1 in E.
    - pose proof (rn_point rad2 n1 y0 1 RN1 ltac:(lra) ltac:(lra) ltac:(lra)) as Q. rewrite E in Q. lra.
    - rewrite PY, QY in E. apply (f_equal rad2) in E. unfold flank_point in E. rewrite !rad2_circle in E.
      apply sq_eq in E; lra. }
  destruct (rn_start rad2 _ n1 y0 RN1 W1 Y NJ) as (t & ET & RT & WT & TS & TE).
  assert (AT : - (pitch / 2) < arctan2 (vy (c_eval rd y1)) (vx (c_eval rd y1))).
  { rewrite QY. unfold flank_point, circle_pt. cbn [vx vy]. rewrite arctan2_polar; lra. }
  assert (P0 : n_point t 0 = flank_point rp alpha pia (rp - hd)) by congruence.
  assert (P1 : n_point t 1 = flank_point rp alpha pia rt) by congruence.
  assert (UPS : forall s u r r', 0 <= s -> s < u -> u <= 1 -> 0 < r -> 0 < r' ->
       n_point t s = flank_point rp alpha pia r -> n_point t u = flank_point rp alpha pia r' -> r < r').
  { intros s u r r' Hs Hsu Hu Hr Hr' Es Eu. pose proof (rn_point rad2 t s u RT Hs Hsu Hu) as Q. rewrite Es, Eu in Q.
    unfold flank_point in Q. rewrite !rad2_circle in Q. apply sq_lt; assumption. }
  exists t. split.
  { unfold trim_root. destruct (Rlt_dec 0 0); [lra|]. cbv zeta. rewrite SY.
    unfold meets in MY. rewrite MY. cbn [bind].
    destruct (sv_meet sv MINDISTANCE n1 rd 0 _) as [[ok2 b0] b1]. rewrite ?MY. cbn [bind orb andb].
    unfold lt_b. destruct (Rlt_dec _ _) as [LL|LL]; [exact ET|]. exfalso. apply LL. lra. }
  split; [apply (rn_flank_ok rad2), RT|]. split.
  { unfold not_opposite. rewrite P0, P1. unfold flank_point, circle_pt. cbn [vx vy]. split.
    - assert (0 < rt * cos (flank_angle rp alpha pia rt)) by (apply Rmult_lt_0_compat; [lra|apply cos_gt_0; lra]). lra.
    - assert (0 < (rp - hd) * cos (flank_angle rp alpha pia (rp - hd) + pitch / 2)) by (apply Rmult_lt_0_compat; [lra|apply cos_gt_0; lra]).
      rewrite cos_plus in *. lra. }
  split; [exact P0|]. split; [exact P1|]. split; [|exact UPS].
  intros s Hs. destruct (rn_within rad2 _ t s RT WT Hs) as (r & Hr & Er). exists r. split; [|exact Er].
  split.
  - destruct (Req_dec s 0) as [->|N].
    + rewrite P0 in Er. apply (f_equal rad2) in Er. unfold flank_point in Er. rewrite !rad2_circle in Er. apply sq_eq in Er; lra.
    + left. apply (UPS 0 s); try lra; assumption.
  - destruct (Req_dec s 1) as [->|N].
    + rewrite P1 in Er. apply (f_equal rad2) in Er. unfold flank_point in Er. rewrite !rad2_circle in Er. apply sq_eq in Er; lra.
    + left. apply (UPS s 1); try lra; assumption.
Qed.

(** ** C105 *)
(** The trimmed flank: the involute from the root circle to the tip circle, every point once, outwards. *)
Theorem C105_flank sv ts rp alpha pia ha hd ho br pitch : spur rp alpha pia ha hd pitch ->
  solved ts rp alpha -> top_found ts rp alpha pia ->
  let n := plane_involute_tooth ts rp alpha pia in
  let rc := generate_reference_circles rp ha hd ho 0 br in
  tip_found sv n (rc_a rc) pitch ->
  (forall n1, trim_tip sv n (rc_a rc) 0 pitch = Ok n1 -> root_found sv n1 (rc_d rc) pitch) ->
  exists t, trim_flank sv n rc 0 0 pitch = Ok t /\ flank_ok t /\ not_opposite t pitch /\
    List.Forall fresh (leaves n) /\
    n_point t 0 = flank_point rp alpha pia (rp - hd) /\ n_point t 1 = flank_point rp alpha pia (rp + ha) /\
    (forall s, 0 <= s <= 1 -> exists r, rp - hd <= r <= rp + ha /\ n_point t s = flank_point rp alpha pia r) /\
    (forall s u r r', 0 <= s -> s < u -> u <= 1 -> 0 < r -> 0 < r' ->
       n_point t s = flank_point rp alpha pia r -> n_point t u = flank_point rp alpha pia r' -> r < r').
Proof.
  intros [P A I PI0 RD H BA GAP LAND] S T n rc (x0 & x1 & SX & X & MX) RF.
  assert (C : 0 < cos alpha) by (apply cos_gt_0; lra).
  destruct (tooth_rising ts rp alpha pia P A I S T) as (RN & W & _). fold n in RN, W.
  destruct (C51_cylindrical rp ha hd ho br P ltac:(lra) ltac:(lra)) as (_ & (CA & _) & CD & _). fold rc in CA, CD.
  destruct (flank_angle_mono rp alpha pia (rp - hd) (rp + ha) P C RD ltac:(lra)) as (MO & _).
  assert (B : 0 < rp * cos alpha) by (apply Rmult_lt_0_compat; assumption).
  assert (RX : rad2 (c_eval (rc_a rc) x1) = (rp + ha) * (rp + ha)).
  { rewrite CA. change (V _ _ _) with (circle_pt (rp + ha) (2 * PI * x1)). apply rad2_circle. }
  assert (PX : n_point n x0 = c_eval (rc_a rc) x1) by (unfold n_point, meets in *; rewrite MX; reflexivity).
  assert (QX : c_eval (rc_a rc) x1 = flank_point rp alpha pia (rp + ha)).
  { destruct (rn_within rad2 _ n x0 RN W ltac:(lra)) as (r & Hr & Er). rewrite PX in Er. rewrite Er in RX |- *.
    apply flank_point_radius in RX; [subst; reflexivity|lra|lra]. }
  assert (YX : vy (c_eval (rc_a rc) x1) < 0).
  { rewrite QX. unfold flank_point, circle_pt. cbn [vy].
    assert (0 < sin (- flank_angle rp alpha pia (rp + ha))) by (apply sin_gt_0; lra). rewrite sin_neg in *.
    assert (0 < (rp + ha) * - sin (flank_angle rp alpha pia (rp + ha))) by (apply Rmult_lt_0_compat; lra). lra. }
  destruct (tip_cut ts rp alpha pia x0 P A I S T X) as (n1 & EN & RN1 & W1 & T1 & EK). fold n in EN, T1.
  assert (TT : trim_tip sv n (rc_a rc) 0 pitch = Ok n1).
  { unfold trim_tip. destruct (Rlt_dec 0 0); [lra|]. cbv zeta. rewrite SX. cbn [fst]. unfold meets in MX. rewrite MX. cbn [bind orb andb].
    unfold lt_b. destruct (Rlt_dec _ 0); [exact EN|contradiction]. }
  destruct (root_cut sv rp alpha pia hd pitch n1 (rp + ha) (rc_d rc) P C PI0 RD ltac:(lra) BA GAP ltac:(lra) RN1 W1 EK
    ltac:(congruence) CD (RF n1 TT)) as (t & TR & FO & NO & P0 & P1 & PS & UP).
  exists t. split; [unfold trim_flank; rewrite TT; exact TR|]. split; [exact FO|]. split; [exact NO|].
  split; [apply (rn_fresh rad2), RN|]. auto.
Qed.

(** The searches can succeed: a flank that reaches from below the root circle to beyond the tip circle does cross them. *)
Lemma reach rb r : 0 < rb -> rb <= r -> exists x, 0 <= x /\ rb * sqrt (1 + x * x) = r.
Proof.
  intros B R. assert (Q : 1 <= r / rb).
  { apply Rmult_le_reg_r with rb; [exact B|]. unfold Rdiv. rewrite Rmult_assoc, Rinv_l by lra. lra. }
  exists (sqrt (r / rb * (r / rb) - 1)). split; [apply sqrt_pos|].
  rewrite sqrt_sqrt. 2:{ assert (1 * 1 <= r / rb * (r / rb)) by (apply Rmult_le_compat; lra). lra. }
  replace (1 + (r / rb * (r / rb) - 1)) with (r / rb * (r / rb)) by ring. rewrite sqrt_square by lra. field. lra.
Qed.
Lemma reach_mono rb x y : 0 < rb -> 0 <= x -> 0 <= y -> rb * sqrt (1 + x * x) < rb * sqrt (1 + y * y) -> x < y.
Proof.
  intros B X Y L. destruct (Rlt_le_dec x y) as [G|G]; [exact G|exfalso].
  assert (sqrt (1 + y * y) <= sqrt (1 + x * x)).
  { apply sqrt_le_1_alt. assert (y * y <= x * x) by (apply Rmult_le_compat; lra). lra. }
  assert (rb * sqrt (1 + y * y) <= rb * sqrt (1 + x * x)) by (apply Rmult_le_compat_l; lra). lra.
Qed.
Lemma reach_inj rb x y : 0 < rb -> 0 <= x -> 0 <= y -> rb * sqrt (1 + x * x) = rb * sqrt (1 + y * y) -> x = y.
Proof.
  intros B X Y E. apply Rmult_eq_reg_l in E; [|lra]. apply sqrt_inj in E.
  - apply Rsqr_inj; try lra. unfold Rsqr. lra.
  - assert (0 <= x * x) by (apply Rmult_le_pos; lra). lra.
  - assert (0 <= y * y) by (apply Rmult_le_pos; lra). lra.
Qed.

Definition answers (a b : R * R) : solver :=
  mkSv (fun _ _ _ g _ => if Req_EM_T g (9 / 10) then (true, fst a, snd a) else (true, fst b, snd b)) (fun _ _ _ => 0) (fun _ _ => 0).

Theorem C105_solvable ts rp alpha pia ha hd ho br pitch : spur rp alpha pia ha hd pitch ->
  solved ts rp alpha -> top_found ts rp alpha pia ->
  rp * cos alpha / 2 <= rp - hd -> rp * cos alpha < rp + ha ->
  rp + ha <= norm (c_eval (plane_involute_flank ts rp alpha pia) 1) ->
  let n := plane_involute_tooth ts rp alpha pia in
  let rc := generate_reference_circles rp ha hd ho 0 br in
  exists sv, tip_found sv n (rc_a rc) pitch /\
  (forall n1, trim_tip sv n (rc_a rc) 0 pitch = Ok n1 -> root_found sv n1 (rc_d rc) pitch).
Proof.
  intros SP S T LO HI END n rc. destruct SP as [P A I PI0 RD H BA GAP LAND].
  assert (C : 0 < cos alpha) by (apply cos_gt_0; lra).
  set (rb := rp * cos alpha) in *. assert (B : 0 < rb) by (apply Rmult_lt_0_compat; assumption).
  destruct (tooth_rising ts rp alpha pia P A I S T) as (RN & W & c0 & c1 & L & E0 & D0 & D1 & F0 & C1 & D2 & F1). fold n rb in RN, W, L, F0, F1, E0.
  rewrite <- C1 in END. clear C1.
  destruct (C51_cylindrical rp ha hd ho br P ltac:(lra) ltac:(lra)) as (_ & (CA & _) & (CD & _) & _). fold rc in CA, CD.
  pose proof (rn_leaves _ _ RN) as RL. rewrite L in RL. inversion RL as [|? ? R0 RL']; subst. inversion RL' as [|? ? R1 _]; subst.
  assert (T1 : 0 <= c_t1 c1) by (pose proof (ri_dom _ _ R1); lra).
  assert (FH : forall x, 0 <= x -> c_fun c1 x = flank_point rp alpha pia (rb * sqrt (1 + x * x))).
  { intros x X. rewrite F1. apply flank_high; assumption. }
  assert (SQ : forall x, 0 < rb * sqrt (1 + x * x)).
  { intros x. apply Rmult_lt_0_compat; [exact B|]. apply sqrt_lt_R0. assert (0 <= x * x) by apply Rle_0_sqr. lra. }
  destruct (rising_ends rad2 c1 R1) as (S0 & S1). rewrite D2 in S0.
  assert (EE : rp + ha <= rb * sqrt (1 + c_t1 c1 * c_t1 c1)).
  { unfold c_eval in END. rewrite S1, FH in END by exact T1. unfold flank_point in END. rewrite circle_pt_norm in END by (left; apply SQ). exact END. }
  destruct (reach rb (rp + ha) B ltac:(lra)) as (ta & TA0 & TA).
  assert (TAP : 0 < ta). { apply (reach_mono rb); try lra. rewrite TA, Rmult_0_l, Rplus_0_r, sqrt_1. lra. }
  assert (TA1 : ta <= c_t1 c1).
  { destruct (Rle_dec ta (c_t1 c1)) as [G|G]; [exact G|exfalso]. rewrite <- TA in EE.
    assert (rb * sqrt (1 + c_t1 c1 * c_t1 c1) < rb * sqrt (1 + ta * ta)).
    { apply Rmult_lt_compat_l; [exact B|]. apply sqrt_lt_1_alt. assert (0 <= c_t1 c1 * c_t1 c1) by apply Rle_0_sqr.
      assert (c_t1 c1 * c_t1 c1 < ta * ta) by (apply Rmult_le_0_lt_compat; lra). lra. }
    lra. }
  destruct (rising_hit rad2 c1 ta R1 ltac:(lra)) as (u & U & EU).
  assert (U0 : 0 < u). { destruct (Req_dec u 0) as [->|]; lra. }
  destruct (leaf_place rad2 n [c0] c1 [] u RN L U (or_intror U0)) as (x0 & X & XP & _ & PX). specialize (XP U0).
  assert (QX : n_point n x0 = flank_point rp alpha pia (rp + ha)).
  { rewrite PX. unfold c_eval. rewrite EU, FH, TA by lra. reflexivity. }
  destruct (rn_end rad2 _ n x0 RN W ltac:(lra)) as (n1 & EN & RN1 & W1 & _ & T1E & pre & c & post & uc & LN & LN1 & UC & CU & _).
  assert (ON : forall r y q, c_eval q y = V (r * cos (2 * PI * y)) (r * sin (2 * PI * y)) 0 ->
    y = flank_angle rp alpha pia r / (2 * PI) -> c_eval q y = flank_point rp alpha pia r).
  { intros r y q -> ->. pose proof PI_RGT_0. replace (2 * PI * (flank_angle rp alpha pia r / (2 * PI))) with (flank_angle rp alpha pia r) by (field; lra). reflexivity. }
  (* the flank cut at the tip *)
  assert (CC : c = c1 /\ pre = [c0]).
  { rewrite L in LN. destruct pre as [|d0 [|d1 pre]]; cbn in LN.
    - exfalso. injection LN as <- _. rewrite QX in CU. unfold c_eval in CU. rewrite F0 in CU.
      apply (f_equal rad2) in CU. unfold flank_point in CU. rewrite !rad2_circle in CU.
      pose proof (rising_dom rad2 c0 uc R0 ltac:(lra)) as DD. rewrite D0, D1 in DD.
      assert (0 <= rb * s2t c0 uc <= rb * 1) by (split; [apply Rmult_le_pos; lra|apply Rmult_le_compat_l; lra]).
      apply sq_eq in CU; lra.
    - injection LN as <- <- _. auto.
    - injection LN as _ _ LN. destruct pre; discriminate LN. }
  destruct CC as [-> ->]. set (c2 := set_end_on c1 uc) in *.
  assert (D3 : c_t0 c2 = 0 /\ c_t1 c2 = s2t c1 uc /\ c_fun c2 = c_fun c1).
  { unfold c2, set_end_on. rewrite update_t0, update_t1, update_fun. cbn [with_domain c_t0 c_t1]. auto. }
  destruct D3 as (D3 & D4 & F2).
  assert (UT : s2t c1 uc = ta).
  { pose proof (rising_dom rad2 c1 uc R1 ltac:(lra)) as DD. rewrite QX in CU. unfold c_eval in CU. rewrite FH in CU by lra.
    apply (f_equal rad2) in CU. unfold flank_point in CU. rewrite !rad2_circle in CU. apply sq_eq in CU; [|apply SQ|lra].
    apply (reach_inj rb); try lra. }
  rewrite UT in D4. clear UT EU.
  pose proof (rn_leaves _ _ RN1) as RLN. rewrite LN1 in RLN. apply Forall_inv_tail in RLN. pose proof (Forall_inv RLN) as R2.
  (* the crossing with the root circle *)
  assert (Y : exists y0, 0 <= y0 < 1 /\ n_point n1 y0 = flank_point rp alpha pia (rp - hd)).
  { destruct (Rle_lt_dec (rp - hd) rb) as [LE|GT].
    - assert (Q : rb * (2 * (rp - hd) / rb - 1) = 2 * (rp - hd) - rb) by (field; lra).
      assert (Q0 : 0 <= 2 * (rp - hd) / rb - 1 < 1).
      { split.
        - apply Rmult_le_reg_l with rb; [exact B|]. rewrite Q. lra.
        - apply Rmult_lt_reg_l with rb; [exact B|]. rewrite Q. lra. }
      destruct (rising_hit rad2 c0 (2 * (rp - hd) / rb - 1) R0 ltac:(lra)) as (v & V0 & EV).
      assert (V1 : v < 1). { destruct (Req_dec v 1) as [->|]; [|lra]. destruct (rising_ends rad2 c0 R0). lra. }
      destruct (leaf_place rad2 n1 [] c0 [c2] v RN1 LN1 V0 (or_introl eq_refl)) as (y0 & Y0 & _ & Y1 & PY).
      exists y0. split; [specialize (Y1 V1); lra|]. rewrite PY. unfold c_eval. rewrite EV, F0.
      unfold flank_point. rewrite flank_low; [|exact P|exact C|fold rb; lra]. f_equal.
      replace (rb * (1 + (2 * (rp - hd) / rb - 1)) / 2) with (rp - hd) by (field; lra). reflexivity.
    - destruct (reach rb (rp - hd) B ltac:(lra)) as (td & TD0 & TD).
      assert (TDP : 0 < td). { apply (reach_mono rb); try lra. rewrite TD, Rmult_0_l, Rplus_0_r, sqrt_1. lra. }
      assert (TDA : td < ta) by (apply (reach_mono rb); try lra).
      destruct (rising_hit rad2 c2 td R2 ltac:(lra)) as (v & V0 & EV).
      destruct (rising_ends rad2 c2 R2) as (Z0 & Z1).
      assert (V1 : 0 < v < 1). { split; [destruct (Req_dec v 0) as [->|]; lra|destruct (Req_dec v 1) as [->|]; lra]. }
      destruct (leaf_place rad2 n1 [c0] c2 [] v RN1 LN1 V0 (or_intror (proj1 V1))) as (y0 & Y0 & _ & Y1 & PY).
      exists y0. split; [specialize (Y1 (proj2 V1)); lra|]. rewrite PY. unfold c_eval. rewrite EV, F2, FH by lra. rewrite TD. reflexivity. }
  destruct Y as (y0 & Y0 & PY).
  set (a := (x0, flank_angle rp alpha pia (rp + ha) / (2 * PI))). set (b := (y0, flank_angle rp alpha pia (rp - hd) / (2 * PI))).
  assert (MX : meets n x0 (rc_a rc) (snd a)).
  { unfold meets. rewrite (leaves_wf n (rn_act _ _ RN) (rising_positive rad2 _ (rn_leaves _ _ RN))). f_equal. rewrite QX. symmetry.
    apply ON; [apply CA|reflexivity]. }
  exists (answers a b). split.
  { exists x0, (snd a). split; [|split; [lra|exact MX]]. unfold answers. cbn [sv_meet]. destruct (Req_EM_T _ _); [reflexivity|lra]. }
  intros n1' TT. assert (n1' = n1).
  { revert TT. unfold trim_tip. destruct (Rlt_dec 0 0); [lra|]. cbv zeta. unfold answers at 1 2 3. cbn [sv_meet].
    destruct (Req_EM_T (9 / 10) (9 / 10)); [|lra]. cbn [fst]. change (fst a) with x0. unfold meets in MX. rewrite MX. cbn [bind orb andb].
    unfold lt_b. destruct (Rlt_dec _ 0) as [G|G]; [intros Q; rewrite EN in Q; apply Ok_inj in Q; auto|].
    exfalso. apply G. rewrite (ON (rp + ha) (snd a) (rc_a rc) (CA _) eq_refl). unfold flank_point, circle_pt. cbn [vy].
    destruct (flank_angle_mono rp alpha pia (rp - hd) (rp + ha) P C RD ltac:(lra)) as (MO & _).
    assert (0 < sin (- flank_angle rp alpha pia (rp + ha))) by (apply sin_gt_0; lra). rewrite sin_neg in *.
    assert (0 < (rp + ha) * - sin (flank_angle rp alpha pia (rp + ha))) by (apply Rmult_lt_0_compat; lra). lra. }
  subst n1'. exists y0, (snd b). split; [|split; [lra|]].
  - unfold answers. cbn [sv_meet]. destruct (Req_EM_T _ _); [lra|reflexivity].
  - unfold meets. rewrite (leaves_wf n1 (rn_act _ _ RN1) (rising_positive rad2 _ (rn_leaves _ _ RN1))). f_equal. rewrite PY. symmetry.
    apply ON; [apply CD|reflexivity].
Qed.

(** The profile of such a gear, without fillets and without tip reduction: it exists, its flank is the one above, and the
    radii of its tip and root arcs are those of the tip and root circle. *)
Theorem C105_profile sv fs ts rp alpha pia ha hd ho br pitch trf : spur rp alpha pia ha hd pitch ->
  solved ts rp alpha -> top_found ts rp alpha pia ->
  let n := plane_involute_tooth ts rp alpha pia in
  let rc := generate_reference_circles rp ha hd ho 0 br in
  tip_found sv n (rc_a rc) pitch ->
  (forall n1, trim_tip sv n (rc_a rc) 0 pitch = Ok n1 -> root_found sv n1 (rc_d rc) pitch) ->
  exists p, generate_reference_profile sv fs n rp ha hd ho 0 br 0 0 0 pitch trf = Ok p /\ pr_trf p = trf /\
    arc_radius (pr_ra p) = rp + ha /\ arc_radius (pr_rd p) = rp - hd /\
    arc_center (pr_ra p) = ORIGIN /\ arc_center (pr_rd p) = ORIGIN /\
    n_point (pr_tooth p) 0 = flank_point rp alpha pia (rp - hd) /\ n_point (pr_tooth p) 1 = flank_point rp alpha pia (rp + ha) /\
    (forall s, 0 <= s <= 1 -> exists r, rp - hd <= r <= rp + ha /\ n_point (pr_tooth p) s = flank_point rp alpha pia r).
Proof.
  intros SP S T n rc TF RF.
  destruct (C105_flank sv ts rp alpha pia ha hd ho br pitch SP S T TF RF) as (t & TR & FO & NO & FR & P0 & P1 & PS & _). fold n rc in TR, FR.
  assert (RR : reduced_circles fs n rc 0 0 br = rc) by (unfold reduced_circles; destruct (Rlt_dec 0 0); [lra|reflexivity]).
  assert (FF : filleted_flank fs n rc 0 0 pitch = Ok n).
  { unfold filleted_flank. destruct (Rlt_dec 0 0); [lra|]. reflexivity. }
  destruct (C91_profile sv fs n rp ha hd ho 0 br 0 0 0 pitch trf n t) as (p & a & b & EP & E1 & _ & E2 & _).
  - fold rc. rewrite RR. exact FF.
  - exact FR.
  - fold rc. rewrite RR. exact TR.
  - exact FO.
  - exact NO.
  - exists p. split; [exact EP|]. split; [exact E1|]. rewrite E2.
    destruct (profile_parts _ _ _ _ _ _ _ _ _ _ _ _ _ _ _ EP) as (f & t' & p0 & E3 & E4 & E5 & E6 & E7 & _ & _).
    fold rc in E3, E4, E5. rewrite RR in E3, E4, E5. rewrite FF in E3. apply Ok_inj in E3. subst f.
    rewrite TR in E4. apply Ok_inj in E4. subst t'.
    destruct (assemble_lands t rc pitch p0 FO (trim_leaves_fresh _ _ _ _ _ _ _ FR TR) E5) as (A1 & A2 & A3 & A4).
    destruct SP as [P A I PI0 RD H BA GAP LAND].
    destruct (C51_cylindrical rp ha hd ho br P ltac:(lra) ltac:(lra)) as (_ & (_ & m1 & CA) & (_ & m2 & CD) & _). fold rc in CA, CD.
    assert (RA : arc_radius (rc_a rc) = rp + ha) by (unfold arc_radius; rewrite CA; apply Rabs_right; lra).
    assert (RD' : arc_radius (rc_d rc) = rp - hd) by (unfold arc_radius; rewrite CD; apply Rabs_right; lra).
    assert (AD : forall r, 0 < r -> axis_dist (flank_point rp alpha pia r) = r).
    { intros r R. unfold axis_dist. change (sqrt (rad2 (flank_point rp alpha pia r)) = r). unfold flank_point. rewrite rad2_circle.
      apply sqrt_square. lra. }
    rewrite E6, E7, A1, A2, A3, A4, RA, RD', P0, P1, !AD by lra. clear A1 A2 A3 A4. unfold flank_point at 1 2. cbn [circle_pt vz].
    split; [destruct (Rlt_dec _ _); reflexivity|]. split; [destruct (Rlt_dec _ _); reflexivity|]. 
    split; [reflexivity|]. split; [reflexivity|]. split; [reflexivity|]. split; [reflexivity|]. exact PS.
Qed.

(** Eight teeth of module one, pressure angle 30 degrees, root radius 3 (below the base circle), tip radius 2 sqrt 6. *)
Lemma PI_3 : 3 < PI. Proof. pose proof PI2_3_2. lra. Qed.
Lemma sqrt_bound a x : 0 <= a -> 0 <= x -> a * a < x -> a < sqrt x.
Proof. intros A X H. rewrite <- (sqrt_square a A). apply sqrt_lt_1_alt. assert (0 <= a * a) by (apply Rmult_le_pos; lra). lra. Qed.
Lemma sqrt_bound_up a x : 0 <= a -> 0 <= x -> x < a * a -> sqrt x < a.
Proof. intros A X H. rewrite <- (sqrt_square a A). apply sqrt_lt_1_alt. lra. Qed.

Lemma ex_spur : spur 4 (PI / 6) (PI / 16) (2 * sqrt 6 - 4) 1 (PI / 4).
Proof.
  pose proof PI_3. pose proof PI_4.
  assert (C : cos (PI / 6) = sqrt 3 / 2) by apply cos_PI6.
  assert (S3 : 17 / 10 < sqrt 3) by (apply sqrt_bound; lra). assert (S3' : sqrt 3 < 1733 / 1000) by (apply sqrt_bound_up; lra).
  assert (S6 : 2 < sqrt 6) by (apply sqrt_bound; lra).
  assert (T6 : tan (PI / 6) = 1 / sqrt 3) by apply tan_PI6.
  assert (Q3 : 1 / sqrt 3 = sqrt 3 / 3).
  { pose proof (sqrt_sqrt 3 ltac:(lra)) as Q. field_simplify_eq; [|lra]. replace (sqrt 3 ^ 2) with (sqrt 3 * sqrt 3) by ring. lra. }
  assert (I6 : inv (PI / 6) = sqrt 3 / 3 - PI / 6) by (unfold inv; rewrite T6, Q3; ring).
  split; try lra.
  - rewrite flank_low; rewrite ?C; try lra.
  - unfold flank_angle. replace (4 + (2 * sqrt 6 - 4)) with (2 * (sqrt 2 * sqrt 3)).
    2:{ rewrite <- sqrt_mult by lra. replace (2 * 3) with 6 by ring. ring. }
    assert (S2 : 0 < sqrt 2) by (apply sqrt_lt_R0; lra).
    replace (4 * cos (PI / 6) / (2 * (sqrt 2 * sqrt 3))) with (1 / sqrt 2) by (rewrite C; field; lra).
    rewrite <- cos_PI4, Rmin_right by apply COS_bound. rewrite acos_cos by lra.
    unfold inv at 1. rewrite tan_PI4. rewrite I6. lra.
Qed.

Lemma ex_ts : exists ts, solved ts 4 (PI / 6) /\ top_found ts 4 (PI / 6) (PI / 16) /\
  norm (c_eval (plane_involute_flank ts 4 (PI / 6) (PI / 16)) 1) = 2 * sqrt 3 * sqrt 5.
Proof.
  pose proof PI_RGT_0. destruct (C42_solver_value_exists 4 (PI / 6) ltac:(lra) ltac:(lra)) as (s2 & E).
  exists (mkTs (fun _ _ _ _ _ => (true, s2, 0)) (fun _ _ _ _ _ => (true, 1)) (fun _ _ => 0) (fun _ _ => (0, 0)) (fun _ _ _ => (0, 0))).
  split; [exact E|]. split; [unfold top_found; cbn; lra|].
  unfold plane_involute_flank. cbn [ts_meet ts_plane snd].
  assert (C : cos (PI / 6) = sqrt 3 / 2) by apply cos_PI6. assert (S3 : 0 < sqrt 3) by (apply sqrt_lt_R0; lra).
  rewrite fresh_end by (apply set_end_fresh || apply NDIV_2).
  assert (I0 : incr (c_ss (involute_curve0 4 (PI / 6)))) by (apply involute0_incr; lra).
  assert (D : c_t1 (set_end_on (involute_curve1 4 (PI / 6) (PI / 16) s2) 1) = 2).
  { change (s2t (involute_curve0 4 (PI / 6)) 1 = 2). apply C28_ends; [apply new_fresh|apply NDIV_2|exact I0]. }
  rewrite D. change (norm (involute_circle 2 (4 * cos (PI / 6)) (base_angle 4 (PI / 6) (PI / 16) s2) ORIGIN 0) = 2 * sqrt 3 * sqrt 5).
  rewrite C23_radius by (rewrite C; lra). rewrite C. replace (1 + 2 * 2) with 5 by ring. field.
Qed.

Example C105_example : exists ts sv t, let rc := generate_reference_circles 4 (2 * sqrt 6 - 4) 1 2 0 4 in
  trim_flank sv (plane_involute_tooth ts 4 (PI / 6) (PI / 16)) rc 0 0 (PI / 4) = Ok t /\
  n_point t 0 = circle_pt 3 (- (PI / 16 + inv (PI / 6))) /\ norm (n_point t 1) = 2 * sqrt 6.
Proof.
  destruct ex_ts as (ts & S & T & E). pose proof ex_spur as SP. pose proof PI_RGT_0.
  assert (C : cos (PI / 6) = sqrt 3 / 2) by apply cos_PI6.
  assert (S3 : 17 / 10 < sqrt 3) by (apply sqrt_bound; lra). assert (S3' : sqrt 3 < 1733 / 1000) by (apply sqrt_bound_up; lra).
  assert (S6 : 2 < sqrt 6) by (apply sqrt_bound; lra). assert (S5 : 2 < sqrt 5) by (apply sqrt_bound; lra).
  assert (S6' : sqrt 6 < 3) by (apply sqrt_bound_up; lra).
  destruct (C105_solvable ts 4 (PI / 6) (PI / 16) (2 * sqrt 6 - 4) 1 2 4 (PI / 4) SP S T) as (sv & TF & RF); try (rewrite ?C; lra).
  { rewrite E. assert (17 / 10 * 2 <= sqrt 3 * sqrt 5) by (apply Rmult_le_compat; lra). lra. }
  destruct (C105_flank sv ts _ _ _ _ _ _ _ _ SP S T TF RF) as (t & TR & _ & _ & _ & P0 & P1 & _).
  exists ts, sv, t. split; [exact TR|]. rewrite P0, P1. unfold flank_point. split.
  - rewrite flank_low by (rewrite ?C; lra). f_equal. lra.
  - rewrite circle_pt_norm by lra. ring.
Qed.
