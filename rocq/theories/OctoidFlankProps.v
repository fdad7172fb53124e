(** Property C111: the flank of a bevel gear, cut at the root and the tip cone, is the curve traced by the crown rack; it leads
    outwards without turning back as long as the gear is not undercut. *)
From Coq Require Import Nsatz Reals List ZArith Lra Lia Psatz Bool.
From Verif Require Import Num Vec Transform TransformProps Params ParamsProps Coords CoordsProps Gen GenProps Interp Curve CurveLem
  CurveProps ArcLem ArcProps Chain ChainLem ChainProps GearLem GearMath MeshProps MeshDistProps Tooth Wrapper Info RefLines RefLinesProps
  Profile ProfileLem ProfileProps Build BuildProps Fillet FilletProps FlankProps ReduceProps Cycloid Teeth CrownRackProps RackConjProps OctoidProps
  UndercutProps RisingLem Report ReportProps SpurProps RadiiProps OutlineProps ConeFlankProps LowerProps TightProps OctoidLem.
Import ListNotations.
Open Scope R_scope.

(** ** Specification *)
(** A bevel tooth: not undercut between the parameters [lo] and [hi]; the points [td] and [ta] between them are those on the
    root cone and on the tip cone; the tooth has a land at the tip and the gap a bottom at the root. *)
Record bevel_tooth (rp g alpha pia ha hd pitch lo hi td ta : R) : Prop := {
  bt_rp : 0 < rp; bt_range : bevel_range g alpha lo hi; bt_pitch : 0 < pitch < PI;
  bt_root : 0 < g - hd / slant rp g; bt_h : 0 < ha + hd; bt_tip : g + ha / slant rp g <= PI / 2;
  bt_td : lo <= td <= hi; bt_ta : lo <= ta <= hi;
  bt_at_root : cone_cos g alpha (reach_sin g alpha td) = cos (g - hd / slant rp g);
  bt_at_tip : cone_cos g alpha (reach_sin g alpha ta) = cos (g + ha / slant rp g);
  bt_gap : - (pitch / 2) < bevel_angle g alpha pia td;
  bt_land : bevel_angle g alpha pia ta < 0 }.

(** The searches find points of the flank between [lo] and [hi]. *)
Definition tip_hit (sv : solver) (lo hi : R) (c ra : curve) (pitch : R) : Prop := exists x0 x1,
  sv_meet sv EQUALITY (Prim c) ra (9 / 10) (- pitch / 8 / c_length ra) = (true, x0, x1) /\
  c_eval c x0 = c_eval ra x1 /\ lo <= s2t c x0 <= hi.
Definition root_hit (sv : solver) (lo hi : R) (c rd : curve) (pitch : R) : Prop := exists x0 x1,
  sv_meet sv EQUALITY (Prim c) rd (3 / 10) (- pitch / 2 / c_length rd) = (true, x0, x1) /\
  c_eval c x0 = c_eval rd x1 /\ lo <= s2t c x0 <= hi.

(** ** Lemmas *)
(** Curves with a given function and domain. *)
Definition arc_of (f : R -> vec) (lo hi : R) : curve := new_curve (SGen f) true lo hi NDIV.

Lemma arc_of_fresh f lo hi : fresh (arc_of f lo hi). Proof. apply new_fresh. Qed.
Lemma arc_of_ndiv f lo hi : (2 <= c_ndiv (arc_of f lo hi))%nat. Proof. apply NDIV_2. Qed.
Lemma arc_of_end f lo hi x : set_end_on (arc_of f lo hi) x = arc_of f lo (s2t (arc_of f lo hi) x).
Proof. unfold set_end_on, arc_of at 3, new_curve. apply update_ext; reflexivity. Qed.
Lemma arc_of_start f lo hi x : set_start_on (arc_of f lo hi) x = arc_of f (s2t (arc_of f lo hi) x) hi.
Proof. unfold set_start_on, arc_of at 3, new_curve. apply update_ext; reflexivity. Qed.
Lemma arc_of_eval f lo hi x : c_eval (arc_of f lo hi) x = f (s2t (arc_of f lo hi) x). Proof. reflexivity. Qed.
Lemma prim_eval c x : c_act c = true -> n_eval (Prim c) x = Ok (c_eval c x).
Proof. intros A. cbn [n_eval]. rewrite ?A. reflexivity. Qed.

Definition octoid_fn (rp alpha pia g : R) (t : R) : vec := octoid t rp (1 / (1 / sphere_R rp (2 * g))) alpha (- pia) ORIGIN 0.
Lemma octoid_fn_eq rp g alpha pia t : bevel rp g alpha -> octoid_fn rp alpha pia g t = bevel_pt rp g alpha pia t.
Proof.
  intros B. pose proof B as [R0 G A]. unfold bevel_pt. rewrite <- (flank_back blind rp g alpha pia t B). rewrite OctoidProps.octoid_flank_fun; [reflexivity|].
  apply Rgt_not_eq. lra.
Qed.
Lemma flank_arc ts rp alpha pia g : g <> 0 -> exists th, octoid_flank ts rp alpha pia (2 * g) = arc_of (octoid_fn rp alpha pia g) 0 th /\
  th = s2t (cone_octoid_curve rp alpha pia (2 * g)) (snd (ts_plane ts EQUALITY (Prim (cone_octoid_curve rp alpha pia (2 * g))) UP ORIGIN 1)).
Proof.
  intros G. unfold octoid_flank. destruct (Req_EM_T (2 * g) 0); [lra|]. eexists. split; [|reflexivity].
  unfold set_end_on, arc_of, new_curve. apply update_ext; reflexivity.
Qed.

Lemma arc_rising rp g alpha pia lo hi a b : 0 < rp -> bevel_range g alpha lo hi -> lo <= a -> a < b -> b <= hi ->
  rising vz (arc_of (octoid_fn rp alpha pia g) a b).
Proof.
  intros R0 B A AB BH. pose proof B as [G AL _ _ _]. destruct (slant_pos rp g R0 ltac:(lra)) as (_ & SL). split.
  - apply arc_of_fresh.
  - apply arc_of_ndiv.
  - reflexivity.
  - left. eexists. reflexivity.
  - exact AB.
  - intros t u T TU U. change (c_t0 (arc_of (octoid_fn rp alpha pia g) a b)) with a in T. change (c_t1 (arc_of (octoid_fn rp alpha pia g) a b)) with b in U.
    change (c_fun (arc_of (octoid_fn rp alpha pia g) a b)) with (octoid_fn rp alpha pia g). rewrite !octoid_fn_eq by (split; assumption).
    rewrite !bevel_coords by (split; assumption). cbn [vz].
    pose proof (cone_cos_falls g alpha lo hi t u B ltac:(lra) TU ltac:(lra)) as F.
    assert (slant rp g * cone_cos g alpha (reach_sin g alpha u) < slant rp g * cone_cos g alpha (reach_sin g alpha t)) by (apply Rmult_lt_compat_l; assumption). lra.
Qed.

(** The circles in which the root and the tip cone meet the sphere. *)
Lemma cone_R rp g : 0 < rp -> 0 < g < PI / 2 -> c_R (polar_cone (2 * g) rp) = slant rp g.
Proof.
  intros R0 G. pose proof (polar_R (2 * g) rp ltac:(lra) ltac:(lra) R0) as E. replace (2 * g / 2) with g in E by field.
  rewrite Rabs_right in E by lra. assert (S : 0 < sin g) by (apply sin_gt_0; lra). unfold slant. rewrite <- E at 2. field. lra.
Qed.
Lemma bevel_circle rp g h : 0 < rp -> 0 < g < PI / 2 -> 0 < g + h / slant rp g < PI ->
  circle_about_z (ref_circle (ref_point (2 * g) rp rp h)) (slant rp g * sin (g + h / slant rp g)) (rp / tan g - slant rp g * cos (g + h / slant rp g)).
Proof.
  intros R0 G H. destruct (slant_pos rp g R0 ltac:(lra)) as (_ & SL). assert (S : 0 < sin g) by (apply sin_gt_0; lra).
  assert (C : 0 < cos g) by (apply cos_gt_0; lra).
  rewrite ref_point_conic by lra. cbv zeta. rewrite cone_R by assumption. replace (2 * g / 2) with g by field. rewrite Rabs_right by lra.
  replace (sign (2 * g)) with 1.
  2:{ unfold sign. destruct (Rlt_dec 0 (2 * g)); [destruct (Rlt_dec (2 * g) 0); [lra|reflexivity]|lra]. }
  replace (1 * (slant rp g * cos g - slant rp g * cos (g + h / slant rp g))) with (rp / tan g - slant rp g * cos (g + h / slant rp g)).
  2:{ unfold slant at 3. unfold tan. field. lra. }
  apply ref_circle_at. apply Rgt_not_eq. apply Rmult_lt_0_compat; [exact SL|apply sin_gt_0; lra].
Qed.

Section Tooth.
  Variables rp g alpha pia ha hd pitch lo hi td ta : R.
  Hypothesis BT : bevel_tooth rp g alpha pia ha hd pitch lo hi td ta.

  Let RR := slant rp g.
  Let F := octoid_fn rp alpha pia g.

  Lemma bt_bevel : bevel rp g alpha.
  Proof. destruct BT as [R0 [G A _ _ _] _ _ _ _ _ _ _ _ _ _]. split; assumption. Qed.
  Lemma bt_g : 0 < g < PI / 2. Proof. apply bt_bevel. Qed.
  Lemma bt_slant : 0 < RR. Proof. apply slant_pos; [apply BT|pose proof bt_g; lra]. Qed.
  Lemma bt_cones : 0 < g - hd / RR /\ g - hd / RR < g + ha / RR /\ g + ha / RR <= PI / 2.
  Proof.
    destruct BT as [R0 B P RT H TP _ _ _ _ _ _]. pose proof bt_slant as SL. fold RR in RT, TP.
    assert (0 < (ha + hd) / RR) by (apply Rdiv_lt_0_compat; assumption).
    assert ((ha + hd) / RR = ha / RR + hd / RR) by (field; lra). repeat split; lra.
  Qed.
  Lemma bt_unique T u : lo <= T <= hi -> lo <= u <= hi -> cone_cos g alpha (reach_sin g alpha T) = cone_cos g alpha (reach_sin g alpha u) -> T = u.
  Proof.
    intros HT HU E. pose proof (bt_range _ _ _ _ _ _ _ _ _ _ _ BT) as B. destruct (Rtotal_order T u) as [L|[L|L]]; [|exact L|].
    - pose proof (cone_cos_falls g alpha lo hi T u B ltac:(lra) L ltac:(lra)). lra.
    - pose proof (cone_cos_falls g alpha lo hi u T B ltac:(lra) L ltac:(lra)). lra.
  Qed.
  Lemma bt_order : td < ta.
  Proof.
    destruct bt_cones as (C0 & C1 & C2). pose proof (bt_range _ _ _ _ _ _ _ _ _ _ _ BT) as B.
    destruct BT as [_ _ _ _ _ _ TD TA ED EA _ _]. fold RR in ED, EA.
    assert (L : cos (g + ha / RR) < cos (g - hd / RR)) by (apply cos_decreasing_1; lra).
    destruct (Rtotal_order td ta) as [Q|[Q|Q]]; [exact Q|subst; lra|].
    pose proof (cone_cos_falls g alpha lo hi ta td B ltac:(lra) Q ltac:(lra)). lra.
  Qed.
  Lemma bt_angles : - (pitch / 2) < bevel_angle g alpha pia td /\ bevel_angle g alpha pia td < bevel_angle g alpha pia ta /\ bevel_angle g alpha pia ta < 0.
  Proof.
    pose proof (bt_range _ _ _ _ _ _ _ _ _ _ _ BT) as B. pose proof bt_order as O. destruct BT as [_ _ _ _ _ _ TD TA _ _ GA LA].
    repeat split; [exact GA| |exact LA]. apply (bevel_angle_rises g alpha pia lo hi); try assumption; lra.
  Qed.
  Lemma bt_rises t u : td <= t -> t < u -> u <= ta -> bevel_angle g alpha pia t < bevel_angle g alpha pia u.
  Proof.
    intros A B C. pose proof (bt_td _ _ _ _ _ _ _ _ _ _ _ BT). pose proof (bt_ta _ _ _ _ _ _ _ _ _ _ _ BT).
    apply (bevel_angle_rises g alpha pia lo hi); try lra. apply BT.
  Qed.
  (** The point in polar form. *)
  Definition cone_angle_at (t : R) : R := acos (cone_cos g alpha (reach_sin g alpha t)).
  Lemma bt_polar t : lo <= t <= hi ->
    bevel_pt rp g alpha pia t = V (RR * sin (cone_angle_at t) * cos (bevel_angle g alpha pia t)) (RR * sin (cone_angle_at t) * sin (bevel_angle g alpha pia t))
      (rp / tan g - RR * cos (cone_angle_at t)) /\ 0 < sin (cone_angle_at t).
  Proof.
    intros T. pose proof (bt_range _ _ _ _ _ _ _ _ _ _ _ BT) as B. pose proof (bevel_polar rp g alpha pia lo hi t (bt_rp _ _ _ _ _ _ _ _ _ _ _ BT) B T) as (E & P).
    cbv zeta in E, P. pose proof (cone_cos_range g alpha lo hi t B T) as C. unfold cone_angle_at. set (cc := cone_cos g alpha (reach_sin g alpha t)) in *.
    rewrite sin_acos, cos_acos by lra. unfold Rsqr. fold RR in E, P. split; [exact E|]. apply sqrt_lt_R0, below_one, C.
  Qed.
  Lemma bt_cone_td : cone_angle_at td = g - hd / RR.
  Proof. unfold cone_angle_at. rewrite (bt_at_root _ _ _ _ _ _ _ _ _ _ _ BT). destruct bt_cones as (C0 & C1 & C2). pose proof PI_RGT_0. apply acos_cos. fold RR. lra. Qed.
  Lemma bt_cone_ta : cone_angle_at ta = g + ha / RR.
  Proof. unfold cone_angle_at. rewrite (bt_at_tip _ _ _ _ _ _ _ _ _ _ _ BT). destruct bt_cones as (C0 & C1 & C2). pose proof PI_RGT_0. apply acos_cos. fold RR. lra. Qed.
  Lemma bt_dist t : lo <= t <= hi -> axis_dist (bevel_pt rp g alpha pia t) = RR * sin (cone_angle_at t).
  Proof.
    intros T. destruct (bt_polar t T) as (-> & P). unfold axis_dist. cbn [vx vy]. pose proof bt_slant.
    set (r := RR * sin (cone_angle_at t)). assert (0 < r) by (apply Rmult_lt_0_compat; assumption).
    pose proof (sc1 (bevel_angle g alpha pia t)) as S. set (a := bevel_angle g alpha pia t) in *.
    replace (r * cos a * (r * cos a) + r * sin a * (r * sin a)) with (r * r * (sin a * sin a + cos a * cos a)) by ring. rewrite S, Rmult_1_r. apply sqrt_square. lra.
  Qed.
  Lemma bt_cone_rises t u : lo <= t -> t < u -> u <= hi -> cone_angle_at t < cone_angle_at u.
  Proof.
    intros A L C. pose proof (bt_range _ _ _ _ _ _ _ _ _ _ _ BT) as B. pose proof (cone_cos_falls g alpha lo hi t u B A L C) as Q.
    pose proof (cone_cos_range g alpha lo hi t B ltac:(lra)) as Ct. pose proof (cone_cos_range g alpha lo hi u B ltac:(lra)) as Cu.
    unfold cone_angle_at. destruct (Rlt_dec (acos (cone_cos g alpha (reach_sin g alpha t))) (acos (cone_cos g alpha (reach_sin g alpha u)))) as [G|G]; [exact G|exfalso].
    pose proof (acos_bound (cone_cos g alpha (reach_sin g alpha t))). pose proof (acos_bound (cone_cos g alpha (reach_sin g alpha u))).
    assert (cos (acos (cone_cos g alpha (reach_sin g alpha t))) <= cos (acos (cone_cos g alpha (reach_sin g alpha u)))).
    { destruct (Req_dec (acos (cone_cos g alpha (reach_sin g alpha u))) (acos (cone_cos g alpha (reach_sin g alpha t)))) as [->|N]; [lra|]. left. apply cos_decreasing_1; lra. }
    rewrite !cos_acos in * by lra. lra.
  Qed.

  (** ** Trimming *)
  Lemma bt_on_circle T h q x : lo <= T <= hi -> circle_about_z q (RR * sin (g + h / RR)) (rp / tan g - RR * cos (g + h / RR)) ->
    F T = c_eval q x -> cone_cos g alpha (reach_sin g alpha T) = cos (g + h / RR).
  Proof.
    intros HT (C & _) E. unfold F in E. rewrite octoid_fn_eq in E by apply bt_bevel. rewrite C in E. apply (f_equal vz) in E.
    destruct (bevel_polar rp g alpha pia lo hi T (bt_rp _ _ _ _ _ _ _ _ _ _ _ BT) (bt_range _ _ _ _ _ _ _ _ _ _ _ BT) HT) as (P & _). cbv zeta in P.
    rewrite P in E. cbn [vz] in E. fold RR in E. pose proof bt_slant. apply (Rmult_eq_reg_l RR); lra.
  Qed.

  Lemma bt_trim_tip sv a b ra : circle_about_z ra (RR * sin (g + ha / RR)) (rp / tan g - RR * cos (g + ha / RR)) ->
    tip_hit sv lo hi (arc_of F a b) ra pitch -> trim_tip sv (Prim (arc_of F a b)) ra 0 pitch = Ok (Prim (arc_of F a ta)).
  Proof.
    intros C (x0 & x1 & SX & MX & TX). rewrite arc_of_eval in MX. pose proof (bt_on_circle _ ha ra x1 TX C MX) as EQ.
    pose proof (bt_ta _ _ _ _ _ _ _ _ _ _ _ BT) as TA.
    assert (ET : s2t (arc_of F a b) x0 = ta) by (apply bt_unique; [exact TX|exact TA|rewrite EQ; symmetry; apply BT]).
    unfold trim_tip. destruct (Rlt_dec 0 0); [lra|]. cbv zeta. rewrite SX. cbn [fst]. rewrite prim_eval by reflexivity. cbn [bind orb].
    rewrite arc_of_eval, ET.
    assert (VY : vy (F ta) < 0).
    { unfold F. rewrite octoid_fn_eq by apply bt_bevel. destruct (bt_polar ta TA) as (-> & P). cbn [vy]. pose proof bt_slant. pose proof bt_angles as (A1 & A2 & A3).
      pose proof (bt_pitch _ _ _ _ _ _ _ _ _ _ _ BT).
      assert (0 < sin (- bevel_angle g alpha pia ta)) by (apply sin_gt_0; lra). rewrite sin_neg in *.
      assert (0 < RR * sin (cone_angle_at ta) * - sin (bevel_angle g alpha pia ta)) by (apply Rmult_lt_0_compat; [apply Rmult_lt_0_compat; assumption|lra]). lra. }
    unfold lt_b. destruct (Rlt_dec (vy (F ta)) 0); [|contradiction]. cbn [orb andb n_set_end]. rewrite arc_of_end, ET. reflexivity.
  Qed.
  Lemma bt_trim_root sv a rd : circle_about_z rd (RR * sin (g + - hd / RR)) (rp / tan g - RR * cos (g + - hd / RR)) ->
    root_hit sv lo hi (arc_of F a ta) rd pitch -> trim_root sv (Prim (arc_of F a ta)) rd 0 pitch = Ok (Prim (arc_of F td ta)).
  Proof.
    intros C (x0 & x1 & SX & MX & TX). rewrite arc_of_eval in MX. pose proof (bt_on_circle _ (- hd) rd x1 TX C MX) as EQ.
    pose proof (bt_td _ _ _ _ _ _ _ _ _ _ _ BT) as TD.
    assert (ET : s2t (arc_of F a ta) x0 = td).
    { apply bt_unique; [exact TX|exact TD|rewrite EQ]. rewrite (bt_at_root _ _ _ _ _ _ _ _ _ _ _ BT). fold RR. f_equal. unfold Rdiv. ring. }
    unfold trim_root. destruct (Rlt_dec 0 0); [lra|]. cbv zeta. rewrite SX. rewrite prim_eval by reflexivity. cbn [bind].
    destruct (sv_meet sv MINDISTANCE _ rd 0 _) as [[ok2 b0] b1]. cbn [bind orb andb].
    rewrite arc_of_eval, ET.
    assert (AN : arctan2 (vy (F td)) (vx (F td)) = bevel_angle g alpha pia td).
    { unfold F. rewrite octoid_fn_eq by apply bt_bevel. destruct (bt_polar td TD) as (-> & P). cbn [vx vy]. pose proof bt_slant. pose proof bt_angles as (A1 & A2 & A3).
      pose proof (bt_pitch _ _ _ _ _ _ _ _ _ _ _ BT). apply arctan2_polar; [apply Rmult_lt_0_compat; assumption|lra]. }
    rewrite AN. unfold lt_b. pose proof bt_angles as (A1 & A2 & A3). destruct (Rlt_dec (- pitch / 2) _) as [L|L]; [|exfalso; apply L; lra].
    cbn [n_set_start]. rewrite arc_of_start, ET. reflexivity.
  Qed.

  Lemma bt_circles ho : let rc := generate_reference_circles rp ha hd ho (2 * g) rp in
    circle_about_z (rc_a rc) (RR * sin (g + ha / RR)) (rp / tan g - RR * cos (g + ha / RR)) /\
    circle_about_z (rc_d rc) (RR * sin (g + - hd / RR)) (rp / tan g - RR * cos (g + - hd / RR)).
  Proof.
    cbv zeta. pose proof bt_cones as (C0 & C1 & C2). pose proof bt_g. pose proof PI_RGT_0. pose proof (bt_rp _ _ _ _ _ _ _ _ _ _ _ BT) as R0.
    unfold generate_reference_circles. cbn [rc_a rc_d]. split.
    - apply bevel_circle; fold RR; [exact R0|assumption|lra].
    - apply bevel_circle; fold RR; [exact R0|assumption|]. replace (- hd / RR) with (- (hd / RR)) by (unfold Rdiv; ring). lra.
  Qed.

  Lemma bt_rising : rising vz (arc_of F td ta).
  Proof.
    apply (arc_rising rp g alpha pia lo hi); [apply BT|apply BT| |apply bt_order|].
    - pose proof (bt_td _ _ _ _ _ _ _ _ _ _ _ BT). lra.
    - pose proof (bt_ta _ _ _ _ _ _ _ _ _ _ _ BT). lra.
  Qed.
  Lemma bt_node : rising_node vz (Prim (arc_of F td ta)).
  Proof.
    assert (L : leaves (Prim (arc_of F td ta)) = [arc_of F td ta]) by reflexivity.
    split; [reflexivity| |].
    - rewrite L. constructor; [apply bt_rising|constructor].
    - rewrite L. exact I.
  Qed.
  Lemma bt_sides : not_opposite (Prim (arc_of F td ta)) pitch.
  Proof.
    pose proof bt_rising as RI. destruct (rising_ends vz _ RI) as (E0 & E1). pose proof bt_slant. pose proof bt_angles as (A1 & A2 & A3).
    pose proof (bt_pitch _ _ _ _ _ _ _ _ _ _ _ BT). unfold not_opposite, n_point. rewrite !prim_eval by reflexivity. rewrite !arc_of_eval, E0, E1.
    change (c_t0 (arc_of F td ta)) with td. change (c_t1 (arc_of F td ta)) with ta. unfold F. rewrite !octoid_fn_eq by apply bt_bevel.
    destruct (bt_polar ta (bt_ta _ _ _ _ _ _ _ _ _ _ _ BT)) as (-> & PA). destruct (bt_polar td (bt_td _ _ _ _ _ _ _ _ _ _ _ BT)) as (-> & PD). cbn [vx vy].
    split.
    - apply Rgt_not_eq. apply Rmult_lt_0_compat; [apply Rmult_lt_0_compat; assumption|apply cos_gt_0; lra].
    - apply Rgt_not_eq. set (a := bevel_angle g alpha pia td) in *. set (r := RR * sin (cone_angle_at td)).
      assert (0 < r) by (apply Rmult_lt_0_compat; assumption).
      assert (0 < r * cos (a + pitch / 2)) by (apply Rmult_lt_0_compat; [assumption|apply cos_gt_0; lra]).
      rewrite cos_plus in *. lra.
  Qed.
End Tooth.

(** ** C111 *)
(** The points of the flank of a bevel gear in closed form: distance from the apex, cone angle, polar angle. *)
Theorem C111_point ts rp g alpha pia lo hi t : 0 < rp -> bevel_range g alpha lo hi -> lo <= t <= hi ->
  let delta := cone_angle_at g alpha t in let phi := bevel_angle g alpha pia t in
  c_fun (octoid_flank ts rp alpha pia (2 * g)) t =
  V (slant rp g * sin delta * cos phi) (slant rp g * sin delta * sin phi) (rp / tan g - slant rp g * cos delta) /\ 0 < delta < PI.
Proof.
  intros R0 B T delta phi. pose proof B as [G A _ _ _].
  rewrite flank_back by (split; assumption). fold (bevel_pt rp g alpha pia t).
  destruct (bevel_polar rp g alpha pia lo hi t R0 B T) as (E & _). cbv zeta in E.
  pose proof (cone_cos_range g alpha lo hi t B T) as C. rewrite E. unfold delta, cone_angle_at.
  set (cc := cone_cos g alpha (reach_sin g alpha t)) in *. rewrite sin_acos, cos_acos by lra. unfold Rsqr. split; [reflexivity|].
  apply acos_bound_lt. exact C.
Qed.

(** It leads outwards: along it the cone angle and the polar angle grow, and with them, up to the plane of the apex, the distance
    from the axis. *)
Theorem C111_outward ts rp g alpha pia lo hi t u : 0 < rp -> bevel_range g alpha lo hi -> lo <= t -> t < u -> u <= hi ->
  cone_angle_at g alpha t < cone_angle_at g alpha u /\ bevel_angle g alpha pia t < bevel_angle g alpha pia u /\
  let c := octoid_flank ts rp alpha pia (2 * g) in vz (c_fun c t) < vz (c_fun c u) /\
  (vz (c_fun c u) <= rp / tan g -> axis_dist (c_fun c t) < axis_dist (c_fun c u)).
Proof.
  intros R0 B T TU U. pose proof B as [G A _ _ _]. destruct (slant_pos rp g R0 ltac:(lra)) as (_ & SL).
  pose proof (cone_cos_falls g alpha lo hi t u B T TU U) as Q.
  pose proof (cone_cos_range g alpha lo hi t B ltac:(lra)) as Ct. pose proof (cone_cos_range g alpha lo hi u B ltac:(lra)) as Cu.
  destruct (C111_point ts rp g alpha pia lo hi t R0 B ltac:(lra)) as (Et & Dt).
  destruct (C111_point ts rp g alpha pia lo hi u R0 B ltac:(lra)) as (Eu & Du). cbv zeta in *. rewrite Et, Eu. cbn [vz].
  set (a := cone_angle_at g alpha t) in *. set (b := cone_angle_at g alpha u) in *.
  assert (CC : cos b < cos a) by (unfold a, b, cone_angle_at; rewrite !cos_acos by lra; exact Q).
  assert (L : a < b).
  { destruct (Rlt_dec a b) as [K|K]; [exact K|exfalso]. destruct (Req_dec a b) as [E|N]; [rewrite E in CC; lra|].
    assert (cos a < cos b) by (apply cos_decreasing_1; lra). lra. }
  split; [exact L|]. split; [apply (bevel_angle_rises g alpha pia lo hi); assumption|].
  assert (slant rp g * cos b < slant rp g * cos a) by (apply Rmult_lt_compat_l; assumption).
  split; [lra|]. intros Z.
  assert (D : forall d p z, 0 < d < PI -> axis_dist (V (slant rp g * sin d * cos p) (slant rp g * sin d * sin p) z) = slant rp g * sin d).
  { intros d p z HD. unfold axis_dist. cbn [vx vy]. set (r := slant rp g * sin d). assert (0 < r) by (apply Rmult_lt_0_compat; [exact SL|apply sin_gt_0; lra]).
    pose proof (sc1 p) as S. replace (r * cos p * (r * cos p) + r * sin p * (r * sin p)) with (r * r * (sin p * sin p + cos p * cos p)) by ring.
    rewrite S, Rmult_1_r. apply sqrt_square. lra. }
  rewrite !D by assumption. apply Rmult_lt_compat_l; [exact SL|].
  assert (0 <= cos b). { assert (0 <= slant rp g * cos b) by lra. destruct (Rle_dec 0 (cos b)); [assumption|]. exfalso.
    assert (slant rp g * 0 > slant rp g * cos b) by (apply Rmult_lt_compat_l; lra). lra. }
  assert (b <= PI / 2). { destruct (Rle_dec b (PI / 2)); [assumption|exfalso]. assert (cos b < 0) by (apply cos_lt_0; lra). lra. }
  apply sin_increasing_1; lra.
Qed.

(** The trimmed flank: from the root cone to the tip cone, every point once, outwards. *)
Definition lower_found (ts : tsolver) (rp alpha pia g : R) (lm : option limits) : Prop :=
  let l := match lm with None => default_limits | Some l => l end in
  fst (ts_plane ts EQUALITY (Prim (octoid_flank ts rp alpha pia (2 * g))) (lower_normal rp (2 * g) l) (lower_apex rp (2 * g)) 0) = true.

Lemma tooth_arc ts rp alpha pia g lm : g <> 0 -> lower_found ts rp alpha pia g lm ->
  exists tl th, octoid_tooth ts rp alpha pia (2 * g) lm = Prim (arc_of (octoid_fn rp alpha pia g) tl th).
Proof.
  intros G L. unfold lower_found in L. unfold octoid_tooth. set (l := match lm with None => default_limits | Some l => l end) in *.
  unfold check_lower. destruct (Req_EM_T (2 * g) 0); [lra|]. destruct (flank_arc ts rp alpha pia g G) as (th & E & _). rewrite E in *.
  unfold cone_lower. fold (lower_normal rp (2 * g) l). fold (lower_apex rp (2 * g)).
  destruct (ts_plane ts EQUALITY _ _ _ _) as [ok x]. cbn in L. subst ok. rewrite arc_of_start. eauto.
Qed.

Theorem C111_flank sv ts rp g alpha pia ha hd ho pitch lo hi td ta lm : bevel_tooth rp g alpha pia ha hd pitch lo hi td ta ->
  lower_found ts rp alpha pia g lm ->
  let n := octoid_tooth ts rp alpha pia (2 * g) lm in
  let rc := generate_reference_circles rp ha hd ho (2 * g) rp in
  (forall c, n = Prim c -> tip_hit sv lo hi c (rc_a rc) pitch) ->
  (forall c, trim_tip sv n (rc_a rc) 0 pitch = Ok (Prim c) -> root_hit sv lo hi c (rc_d rc) pitch) ->
  exists t T, trim_flank sv n rc 0 0 pitch = Ok t /\ flank_ok t /\ not_opposite t pitch /\ List.Forall fresh (leaves n) /\
    (forall s, 0 <= s <= 1 -> n_point t s = bevel_pt rp g alpha pia (T s) /\ td <= T s <= ta) /\
    T 0 = td /\ T 1 = ta /\ (forall s u, 0 <= s -> s < u -> u <= 1 -> T s < T u) /\
    (forall x, td <= x <= ta -> exists s, 0 <= s <= 1 /\ T s = x).
Proof.
  intros BT LF n rc TH RH. pose proof (bt_g _ _ _ _ _ _ _ _ _ _ _ BT) as G.
  destruct (tooth_arc ts rp alpha pia g lm ltac:(lra) LF) as (tl & th & E). fold n in E.
  destruct (bt_circles _ _ _ _ _ _ _ _ _ _ _ BT ho) as (CA & CD). fold rc in CA, CD.
  set (F := octoid_fn rp alpha pia g) in *.
  pose proof (bt_trim_tip _ _ _ _ _ _ _ _ _ _ _ BT sv tl th (rc_a rc) CA (TH _ E)) as T1. fold F in T1. rewrite <- E in T1.
  pose proof (bt_trim_root _ _ _ _ _ _ _ _ _ _ _ BT sv tl (rc_d rc) CD (RH _ T1)) as T2. fold F in T2.
  pose proof (bt_rising _ _ _ _ _ _ _ _ _ _ _ BT) as RI. fold F in RI. pose proof (bt_node _ _ _ _ _ _ _ _ _ _ _ BT) as RN. fold F in RN.
  destruct (rising_ends vz _ RI) as (E0 & E1).
  exists (Prim (arc_of F td ta)), (s2t (arc_of F td ta)). split; [unfold trim_flank; rewrite T1; exact T2|].
  split; [apply (rn_flank_ok vz), RN|]. split; [apply (bt_sides _ _ _ _ _ _ _ _ _ _ _ BT)|].
  split. { rewrite E. constructor; [apply arc_of_fresh|constructor]. }
  split. { intros s S. split; [|apply (rising_dom vz _ s RI S)]. unfold n_point. rewrite prim_eval by reflexivity. rewrite arc_of_eval.
           apply octoid_fn_eq. apply (bt_bevel _ _ _ _ _ _ _ _ _ _ _ BT). }
  split; [exact E0|]. split; [exact E1|]. split.
  - intros s u A B C. apply (rising_mono vz _ s u RI A B C).
  - intros x X. destruct (rising_hit vz _ x RI X) as (s & S & ES). eauto.
Qed.

(** The straight widths of the land at the tip and of the bottom of the tooth space. *)
Definition bevel_land (rp g alpha pia ha ta : R) : R := 2 * (slant rp g * sin (g + ha / slant rp g)) * sin (- bevel_angle g alpha pia ta).
Definition bevel_space (rp g alpha pia hd pitch td : R) : R :=
  2 * (slant rp g * sin (g - hd / slant rp g)) * sin (pitch / 2 + bevel_angle g alpha pia td).

Lemma bevel_leading rp g alpha pia ha hd pitch lo hi td ta t T : bevel_tooth rp g alpha pia ha hd pitch lo hi td ta ->
  (forall s, 0 <= s <= 1 -> n_point t s = bevel_pt rp g alpha pia (T s) /\ td <= T s <= ta) ->
  T 0 = td -> T 1 = ta -> (forall s u, 0 <= s -> s < u -> u <= 1 -> T s < T u) ->
  let rho := fun s => slant rp g * sin (cone_angle_at g alpha (T s)) in let phi := fun s => bevel_angle g alpha pia (T s) in
  leading t pitch rho phi /\ rho 0 = slant rp g * sin (g - hd / slant rp g) /\ rho 1 = slant rp g * sin (g + ha / slant rp g) /\
  root_gap t pitch = bevel_space rp g alpha pia hd pitch td /\ tip_gap t = bevel_land rp g alpha pia ha ta.
Proof.
  intros BT PS T0 T1 MO rho phi. pose proof (bt_td _ _ _ _ _ _ _ _ _ _ _ BT) as TD. pose proof (bt_ta _ _ _ _ _ _ _ _ _ _ _ BT) as TA.
  pose proof (bt_cones _ _ _ _ _ _ _ _ _ _ _ BT) as (C0 & C1 & C2). pose proof (bt_slant _ _ _ _ _ _ _ _ _ _ _ BT) as SL.
  pose proof (bt_angles _ _ _ _ _ _ _ _ _ _ _ BT) as (A1 & A2 & A3). pose proof (bt_pitch _ _ _ _ _ _ _ _ _ _ _ BT) as PI0. pose proof PI_RGT_0.
  pose proof (bt_cone_td _ _ _ _ _ _ _ _ _ _ _ BT) as CD. pose proof (bt_cone_ta _ _ _ _ _ _ _ _ _ _ _ BT) as CA.
  assert (R0 : rho 0 = slant rp g * sin (g - hd / slant rp g)) by (unfold rho; rewrite T0, CD; reflexivity).
  assert (R1 : rho 1 = slant rp g * sin (g + ha / slant rp g)) by (unfold rho; rewrite T1, CA; reflexivity).
  assert (PF : forall x, lo <= x <= hi -> polar (bevel_pt rp g alpha pia x) (slant rp g * sin (cone_angle_at g alpha x)) (bevel_angle g alpha pia x)).
  { intros x X. destruct (bt_polar _ _ _ _ _ _ _ _ _ _ _ BT x X) as (-> & _). split; reflexivity. }
  assert (RP0 : 0 < slant rp g * sin (g - hd / slant rp g)) by (apply Rmult_lt_0_compat; [exact SL|apply sin_gt_0; lra]).
  assert (RP1 : 0 < slant rp g * sin (g + ha / slant rp g)) by (apply Rmult_lt_0_compat; [exact SL|apply sin_gt_0; lra]).
  split; [|split; [exact R0|split; [exact R1|]]].
  - split.
    + exact PI0.
    + intros s S. destruct (PS s S) as (-> & B). apply PF. lra.
    + rewrite R0. exact RP0.
    + intros s u S U V. destruct (PS s ltac:(lra)) as (_ & Bs). destruct (PS u ltac:(lra)) as (_ & Bu). pose proof (MO s u S U V) as L.
      split; [|left; apply (bt_rises _ _ _ _ _ _ _ _ _ _ _ BT); lra].
      apply Rmult_lt_compat_l; [exact SL|].
      pose proof (bt_cone_rises _ _ _ _ _ _ _ _ _ _ _ BT (T s) (T u) ltac:(lra) L ltac:(lra)) as CR.
      assert (LO : cone_angle_at g alpha td <= cone_angle_at g alpha (T s)).
      { destruct (Req_dec td (T s)) as [<-|N]; [lra|]. left. apply (bt_cone_rises _ _ _ _ _ _ _ _ _ _ _ BT); lra. }
      assert (HI : cone_angle_at g alpha (T u) <= cone_angle_at g alpha ta).
      { destruct (Req_dec ta (T u)) as [<-|N]; [lra|]. left. apply (bt_cone_rises _ _ _ _ _ _ _ _ _ _ _ BT); lra. }
      rewrite CD in LO. rewrite CA in HI. apply sin_increasing_1; lra.
    + unfold phi. rewrite T0. exact A1.
    + unfold phi. rewrite T1. exact A3.
  - unfold root_gap, tip_gap, bevel_space, bevel_land. destruct (PS 0 ltac:(lra)) as (-> & _). destruct (PS 1 ltac:(lra)) as (-> & _). rewrite T0, T1.
    pose proof (PF td TD) as PD. pose proof (PF ta TA) as PA. rewrite CD in PD. rewrite CA in PA. split.
    + set (a := bevel_angle g alpha pia td) in *.
      rewrite (chord_polar _ _ (slant rp g * sin (g - hd / slant rp g)) (- a + - pitch) a); [f_equal; f_equal; field| | | |exact RP0|lra].
      * apply polar_turn, polar_flip, PD.
      * exact PD.
      * unfold turn, flip. vec_simpl. ring.
    + set (a := bevel_angle g alpha pia ta) in *.
      rewrite (chord_polar _ _ (slant rp g * sin (g + ha / slant rp g)) a (- a)); [f_equal; f_equal; field| | | |exact RP1|lra].
      * exact PA.
      * apply polar_flip, PA.
      * reflexivity.
Qed.

(** The profile: the lands lie on the tip and the root cone. *)
Theorem C111_profile sv fs ts rp g alpha pia ha hd ho pitch lo hi td ta trf lm : bevel_tooth rp g alpha pia ha hd pitch lo hi td ta ->
  lower_found ts rp alpha pia g lm ->
  let n := octoid_tooth ts rp alpha pia (2 * g) lm in
  let rc := generate_reference_circles rp ha hd ho (2 * g) rp in
  (forall c, n = Prim c -> tip_hit sv lo hi c (rc_a rc) pitch) ->
  (forall c, trim_tip sv n (rc_a rc) 0 pitch = Ok (Prim c) -> root_hit sv lo hi c (rc_d rc) pitch) ->
  let S := slant rp g in
  exists p T, generate_reference_profile sv fs n rp ha hd ho (2 * g) rp 0 0 0 pitch trf = Ok p /\ pr_trf p = trf /\
    arc_radius (pr_ra p) = S * sin (g + ha / S) /\ arc_center (pr_ra p) = V 0 0 (rp / tan g - S * cos (g + ha / S)) /\
    arc_radius (pr_rd p) = S * sin (g - hd / S) /\ arc_center (pr_rd p) = V 0 0 (rp / tan g - S * cos (g - hd / S)) /\
    (forall s, 0 <= s <= 1 -> n_point (pr_tooth p) s = bevel_pt rp g alpha pia (T s)) /\
    T 0 = td /\ T 1 = ta /\ (forall s u, 0 <= s -> s < u -> u <= 1 -> T s < T u) /\
    (forall x, td <= x <= ta -> exists s, 0 <= s <= 1 /\ T s = x).
Proof.
  intros BT LF n rc TF RF SL. pose proof (bt_g _ _ _ _ _ _ _ _ _ _ _ BT) as G.
  destruct (C111_flank sv ts rp g alpha pia ha hd ho pitch lo hi td ta lm BT LF TF RF) as (t & T & TR & FO & NO & FR & PS & T0 & T1 & MO & ON). fold n rc in TR, FR.
  assert (RR : reduced_circles fs n rc 0 (2 * g) rp = rc) by (unfold reduced_circles; destruct (Rlt_dec 0 0); [lra|reflexivity]).
  assert (FF : filleted_flank fs n rc 0 0 pitch = Ok n).
  { unfold filleted_flank. destruct (Rlt_dec 0 0); [lra|]. reflexivity. }
  destruct (C91_profile sv fs n rp ha hd ho (2 * g) rp 0 0 0 pitch trf n t) as (p & a & b & EP & E1 & _ & E2 & _).
  - fold rc. rewrite RR. exact FF.
  - exact FR.
  - fold rc. rewrite RR. exact TR.
  - exact FO.
  - exact NO.
  - exists p, T. split; [exact EP|]. split; [exact E1|]. rewrite E2.
    destruct (profile_parts _ _ _ _ _ _ _ _ _ _ _ _ _ _ _ EP) as (f & t' & p0 & E3 & E4 & E5 & E6 & E7 & _ & _).
    fold rc in E3, E4, E5. rewrite RR in E3, E4, E5. rewrite FF in E3. apply Ok_inj in E3. subst f.
    rewrite TR in E4. apply Ok_inj in E4. subst t'.
    destruct (assemble_lands t rc pitch p0 FO (trim_leaves_fresh _ _ _ _ _ _ _ FR TR) E5) as (A1 & A2 & A3 & A4).
    destruct (bt_circles _ _ _ _ _ _ _ _ _ _ _ BT ho) as ((_ & m1 & CA) & (_ & m2 & CD)). fold rc SL in CA, CD.
    pose proof (bt_cones _ _ _ _ _ _ _ _ _ _ _ BT) as (C0 & C1 & C2). pose proof (bt_slant _ _ _ _ _ _ _ _ _ _ _ BT) as SP. fold SL in C0, C1, C2, SP.
    assert (SQ : forall q, 0 < q < PI -> 0 < SL * sin q) by (intros; apply Rmult_lt_0_compat; [exact SP|apply sin_gt_0; lra]).
    replace (g + - hd / SL) with (g - hd / SL) in CD by (unfold Rdiv; ring). pose proof PI_RGT_0.
    assert (RA : arc_radius (rc_a rc) = SL * sin (g + ha / SL)) by (unfold arc_radius; rewrite CA; apply Rabs_right, Rgt_ge, SQ; lra).
    assert (RD : arc_radius (rc_d rc) = SL * sin (g - hd / SL)) by (unfold arc_radius; rewrite CD; apply Rabs_right, Rgt_ge, SQ; lra).
    destruct (PS 0 ltac:(lra)) as (P0 & _). destruct (PS 1 ltac:(lra)) as (P1 & _). rewrite T0 in P0. rewrite T1 in P1.
    pose proof (bt_td _ _ _ _ _ _ _ _ _ _ _ BT) as TD. pose proof (bt_ta _ _ _ _ _ _ _ _ _ _ _ BT) as TA.
    pose proof (bt_dist _ _ _ _ _ _ _ _ _ _ _ BT td TD) as D0. pose proof (bt_dist _ _ _ _ _ _ _ _ _ _ _ BT ta TA) as D1.
    destruct (bt_polar _ _ _ _ _ _ _ _ _ _ _ BT td TD) as (Q0 & _). destruct (bt_polar _ _ _ _ _ _ _ _ _ _ _ BT ta TA) as (Q1 & _).
    rewrite (bt_cone_td _ _ _ _ _ _ _ _ _ _ _ BT) in D0, Q0. rewrite (bt_cone_ta _ _ _ _ _ _ _ _ _ _ _ BT) in D1, Q1. fold SL in D0, D1, Q0, Q1.
    rewrite E6, E7, A1, A2, A3, A4, RA, RD, P0, P1, D0, D1, Q0, Q1. cbn [vz]. clear A1 A2 A3 A4.
    split; [destruct (Rlt_dec _ _); reflexivity|]. split; [reflexivity|]. split; [destruct (Rlt_dec _ _); reflexivity|].
    split; [reflexivity|]. split; [intros s Hs; apply PS, Hs|]. repeat (split; [assumption|]). exact ON.
Qed.

(** ** The gear the user makes *)
Record bevel_gear (g : igear) (n : Z) (gm : R) : Prop := {
  bg_core : ig_core g = with_trf (calc_params (ig_in g)) (k_trf (ig_core g));
  bg_teeth : ip_teeth (ig_in g) = IZR n; bg_n : (0 < n)%Z; bg_module : 0 < ip_module (ig_in g);
  bg_cone : ip_cone (ig_in g) = 2 * gm; bg_orient : rotation (g_orient (k_trf (ig_core g)));
  bg_scale : g_scale (k_trf (ig_core g)) = ip_module (ig_in g);
  bg_under : ip_undercut (ig_in g) = false;
  bg_tip : ip_tip_fillet (ig_in g) = 0; bg_root : ip_root_fillet (ig_in g) = 0; bg_trunc : ip_tip_trunc (ig_in g) = 0 }.
Definition bevel_at (g : igear) (n : Z) (gm z lo hi td ta : R) : Prop := let p := ig_in g in
  bevel_tooth (IZR n / 2) gm (ip_alpha p) (ig_pia g z) (ip_add p + ip_shift p) (ip_ded p - ip_shift p) (2 * PI / IZR n) lo hi td ta.
(** The searches at the height [z] find the crossings. *)
Definition bevel_searched (sv : solver) (ts : tsolver) (g : igear) (n : Z) (gm z lo hi : R) : Prop := let p := ig_in g in
  let rp := IZR n / 2 in let tooth := octoid_tooth ts rp (ip_alpha p) (ig_pia g z) (2 * gm) None in
  let rc := generate_reference_circles rp (ip_add p + ip_shift p) (ip_ded p - ip_shift p) (k_ho (ig_core g)) (2 * gm) rp in
  lower_found ts rp (ip_alpha p) (ig_pia g z) gm None /\
  (forall c, tooth = Prim c -> tip_hit sv lo hi c (rc_a rc) (2 * PI / IZR n)) /\
  (forall c, trim_tip sv tooth (rc_a rc) 0 (2 * PI / IZR n) = Ok (Prim c) -> root_hit sv lo hi c (rc_d rc) (2 * PI / IZR n)).

Lemma bevel_core g n gm z : bevel_gear g n gm -> let k := ig_core g in let p := ig_in g in
  k_rp k = IZR n / 2 /\ k_alpha k = ip_alpha p /\ k_ha k = ip_add p + ip_shift p /\ k_hd k = ip_ded p - ip_shift p /\
  k_cone k = 2 * gm /\ g_scale (k_slice k z) = 1 - z * 2 * sin gm / IZR n /\ ip_teeth p = IZR n /\ sound k /\ num_teeth (k_tooth k) = IZR n /\
  k_ho k = (if ip_inside p then -2 else 2).
Proof.
  intros H. cbv zeta. assert (N : 0 < IZR n) by (apply IZR_lt, (bg_n _ _ _ H)).
  assert (EC := bg_core _ _ _ H). assert (SO : sound (ig_core g)) by (split; [rewrite (bg_scale _ _ _ H); apply (bg_module _ _ _ H)|apply (bg_orient _ _ _ H)]).
  revert SO. rewrite EC. intros SO.
  cbn [with_trf calc_params k_rp k_alpha k_ha k_hd k_cone k_tooth k_slice g_scale k_gamma k_trf k_ho] in *.
  rewrite (bg_teeth _ _ _ H), (bg_cone _ _ _ H). unfold tp_make. destruct (Rlt_dec (IZR n) 0); [lra|]. cbn [num_teeth].
  replace (2 * gm / 2) with gm by field. repeat (split; [first [reflexivity|exact SO]|]). reflexivity.
Qed.
Lemma bevel_ig_tooth ts g n gm z : bevel_gear g n gm -> gm <> 0 ->
  ig_tooth ts g z = Ok (octoid_tooth ts (IZR n / 2) (ip_alpha (ig_in g)) (ig_pia g z) (2 * gm) None).
Proof.
  intros H G. destruct (bevel_core g n gm z H) as (E1 & E2 & _ & _ & E5 & _). unfold ig_tooth. rewrite (bg_under _ _ _ H), E5.
  destruct (Req_EM_T (2 * gm) 0); [lra|]. rewrite E1, E2. reflexivity.
Qed.

Theorem C111_gear sv fs ts g n gm z lo hi td ta : bevel_gear g n gm -> bevel_at g n gm z lo hi td ta -> bevel_searched sv ts g n gm z lo hi ->
  let ip := ig_in g in let rp := IZR n / 2 in let pia := ig_pia g z in let pitch := 2 * PI / IZR n in let S := slant rp gm in
  let ha := ip_add ip + ip_shift ip in let hd := ip_ded ip - ip_shift ip in
  exists p T, ig_profile sv fs ts g z = Ok p /\
    arc_radius (pr_ra p) = S * sin (gm + ha / S) /\ arc_center (pr_ra p) = V 0 0 (rp / tan gm - S * cos (gm + ha / S)) /\
    arc_radius (pr_rd p) = S * sin (gm - hd / S) /\ arc_center (pr_rd p) = V 0 0 (rp / tan gm - S * cos (gm - hd / S)) /\
    (forall s, 0 <= s <= 1 -> n_point (pr_tooth p) s = bevel_pt rp gm (ip_alpha ip) pia (T s)) /\
    T 0 = td /\ T 1 = ta /\ (forall s u, 0 <= s -> s < u -> u <= 1 -> T s < T u) /\
    (forall x, td <= x <= ta -> exists s, 0 <= s <= 1 /\ T s = x).
Proof.
  intros H BA (LF & TF & RF) ip rp pia pitch S ha hd. pose proof (bt_g _ _ _ _ _ _ _ _ _ _ _ BA) as G.
  pose proof (bevel_core g n gm z H) as K. cbv zeta in K. destruct K as (E1 & E2 & E3 & E4 & E5 & E6 & E7 & SO & _).
  destruct (C111_profile sv fs ts _ _ _ _ _ _ (k_ho (ig_core g)) _ _ _ _ _ (k_slice (ig_core g) z) None BA LF TF RF) as (p & T & EP & _ & REST).
  exists p, T. split; [|exact REST].
  unfold ig_profile. rewrite (bevel_ig_tooth ts g n gm z H) by lra. cbn [bind].
  rewrite E1, E3, E4, E5, E7, (bg_tip _ _ _ H), (bg_root _ _ _ H), (bg_trunc _ _ _ H). exact EP.
Qed.

(** Its outline at the large end, seen along the axis, is one closed curve without crossings, between the root and the tip circle. *)
Theorem C111_outline sv fs ts g n gm z lo hi td ta : bevel_gear g n gm -> bevel_at g n gm z lo hi td ta -> bevel_searched sv ts g n gm z lo hi ->
  let ip := ig_in g in let rp := IZR n / 2 in let pia := ig_pia g z in let pitch := 2 * PI / IZR n in let S := slant rp gm in
  let ha := ip_add ip + ip_shift ip in let hd := ip_ded ip - ip_shift ip in
  / 10000000000 < bevel_space rp gm (ip_alpha ip) pia hd pitch td -> / 10000000000 < bevel_land rp gm (ip_alpha ip) pia ha ta ->
  exists p c, ig_profile sv fs ts g z = Ok p /\ generate_boundary p (PyInt n) pitch (IZR n) = Ok c /\
    (forall s u, 0 <= s < 1 -> 0 <= u < 1 -> c_eval c s = c_eval c u -> s = u) /\
    exists r a : R -> R, forall x, polar (boundary_fun p pitch (IZR n) x) (r x) (a x) /\ S * sin (gm - hd / S) <= r x <= S * sin (gm + ha / S) /\
      (forall y, x <= y -> a x <= a y) /\ a (x + 1) = a x + 2 * PI.
Proof.
  intros H BA SE ip rp pia pitch S ha hd WS WL. pose proof (bt_g _ _ _ _ _ _ _ _ _ _ _ BA) as G.
  destruct (C111_gear sv fs ts g n gm z lo hi td ta H BA SE) as (p & T' & EP & _). destruct SE as (LF & TF & RF).
  destruct (C111_flank sv ts _ _ _ _ _ _ _ _ _ _ _ _ _ BA LF TF RF) as (t & T & TR & FO & NO & FR & PS & T0 & T1 & MO & ON).
  destruct (bevel_leading _ _ _ _ _ _ _ _ _ _ _ t T BA PS T0 T1 MO) as (LE & R0 & R1 & G0 & G1).
  pose proof (bevel_core g n gm z H) as K. cbv zeta in K. destruct K as (E1 & E2 & E3 & E4 & E5 & E6 & E7 & SO & _).
  assert (HN : (0 < n)%Z) by apply (bg_n _ _ _ H).
  pose proof EP as EQ. unfold ig_profile in EQ. rewrite (bevel_ig_tooth ts g n gm z H) in EQ by lra. cbn [bind] in EQ.
  rewrite E1, E3, E4, E5, E7, (bg_tip _ _ _ H), (bg_root _ _ _ H), (bg_trunc _ _ _ H) in EQ. unfold generate_reference_profile in EQ.
  set (tooth := octoid_tooth ts (IZR n / 2) (ip_alpha (ig_in g)) (ig_pia g z) (2 * gm) None) in *.
  set (rc := generate_reference_circles (IZR n / 2) (ip_add (ig_in g) + ip_shift (ig_in g)) (ip_ded (ig_in g) - ip_shift (ig_in g))
               (k_ho (ig_core g)) (2 * gm) (IZR n / 2)) in *.
  replace (reduced_circles fs tooth rc 0 (2 * gm) (IZR n / 2)) with rc in EQ
    by (unfold reduced_circles; destruct (Rlt_dec 0 0); [lra|reflexivity]).
  replace (filleted_flank fs tooth rc 0 0 (2 * PI / IZR n)) with (Ok tooth) in EQ
    by (unfold filleted_flank; destruct (Rlt_dec 0 0); [lra|reflexivity]).
  cbn [bind] in EQ. destruct (trim_reference_profile sv tooth rc 0 0 (2 * PI / IZR n)) as [p0|] eqn:ET; [|discriminate].
  cbn [bind] in EQ. apply Ok_inj in EQ.
  assert (BF : forall x, boundary_fun p pitch (IZR n) x = boundary_fun p0 pitch (IZR n) x) by (subst p; reflexivity).
  assert (GR : / 10000000000 < root_gap t (2 * PI / IZR n)) by (rewrite G0; exact WS).
  assert (GT : / 10000000000 < tip_gap t) by (rewrite G1; exact WL).
  pose proof (C106_simple sv tooth rc 0 0 n t p0 _ _ HN FR TR FO LE GR GT ET) as INJ. cbv zeta in INJ. fold pitch in INJ.
  destruct (boundary_object p n HN) as (c & EC & CI).
  { intros x y X Y E. apply INJ; [exact X|exact Y|]. fold pitch in E. rewrite <- !BF. exact E. }
  exists p, c. split; [exact EP|]. split; [exact EC|]. split; [exact CI|].
  destruct (C106_once_round sv tooth rc 0 0 n t p0 _ _ HN FR TR FO LE GR GT ET) as (r & a & PR). cbv beta in PR.
  exists r, a. intros x. rewrite BF. destruct (PR x) as (Q1 & Q2 & Q3). cbv beta in R0, R1. rewrite R0, R1 in Q2. auto.
Qed.

(** The radii and the cone angles it reports. *)
Lemma slant_gt rp g : 0 < rp -> 0 < g < PI / 2 -> rp / slant rp g < g.
Proof.
  intros R0 G. assert (S : 0 < sin g) by (apply sin_gt_0; lra). unfold slant. replace (rp / (rp / sin g)) with (sin g) by (field; lra).
  apply sin_lt_x. lra.
Qed.
Theorem C111_report sv fs ts g n gm z lo hi td ta : bevel_gear g n gm -> bevel_at g n gm z lo hi td ta -> bevel_searched sv ts g n gm z lo hi ->
  ip_inside (ig_in g) = false -> 0 < 1 - z * 2 * sin gm / IZR n ->
  let ip := ig_in g in let rp := IZR n / 2 in let pia := ig_pia g z in let pitch := 2 * PI / IZR n in let S := slant rp gm in
  let ha := ip_add ip + ip_shift ip in let hd := ip_ded ip - ip_shift ip in let k := ip_module ip * (1 - z * 2 * sin gm / IZR n) in
  / 10000000000 < bevel_space rp gm (ip_alpha ip) pia hd pitch td -> / 10000000000 < bevel_land rp gm (ip_alpha ip) pia ha ta ->
  (exists c, ig_circles sv fs ts g z = Ok c /\ arc_radius (rc_a c) = k * (S * sin (gm + ha / S)) /\ arc_radius (rc_d c) = k * (S * sin (gm - hd / S))) /\
  ig_cone_angles sv fs ts g z = Ok [gm - Rmin 2 (rp - / 1000000) / S; gm - hd / S; gm; gm + ha / S].
Proof.
  intros H BA (LF & TF & RF) IN SC ip rp pia pitch S ha hd k WS WL. pose proof (bt_g _ _ _ _ _ _ _ _ _ _ _ BA) as G.
  destruct (C111_flank sv ts _ _ _ _ _ _ (k_ho (ig_core g)) _ _ _ _ _ _ BA LF TF RF) as (t & T & TR & FO & NO & FR & PS & T0 & T1 & MO & ON).
  destruct (bevel_leading _ _ _ _ _ _ _ _ _ _ _ t T BA PS T0 T1 MO) as (LE & R0 & R1 & G0 & G1).
  pose proof (bevel_core g n gm z H) as K. cbv zeta in K. destruct K as (E1 & E2 & E3 & E4 & E5 & E6 & E7 & SO & E8 & E9). rewrite IN in E9.
  assert (HN : 1 <= IZR n) by (apply IZR_le; pose proof (bg_n _ _ _ H); lia).
  set (tooth := octoid_tooth ts (IZR n / 2) (ip_alpha (ig_in g)) (ig_pia g z) (2 * gm) None) in *.
  set (rc := generate_reference_circles (IZR n / 2) (ip_add (ig_in g) + ip_shift (ig_in g)) (ip_ded (ig_in g) - ip_shift (ig_in g))
               (k_ho (ig_core g)) (2 * gm) (IZR n / 2)) in *.
  assert (FL : flank_of sv fs ts g z rc t).
  { split; [exact FO|rewrite E7; exact NO|]. exists tooth, tooth. cbv zeta. rewrite E1, E3, E4, E5, E7, (bg_tip _ _ _ H), (bg_root _ _ _ H), (bg_trunc _ _ _ H).
    split; [apply (bevel_ig_tooth ts g n gm z H); lra|]. split; [unfold reduced_circles; destruct (Rlt_dec 0 0); [lra|reflexivity]|].
    split; [unfold filleted_flank; destruct (Rlt_dec 0 0); [lra|reflexivity]|]. split; [exact FR|exact TR]. }
  pose proof (bt_cones _ _ _ _ _ _ _ _ _ _ _ BA) as (C0 & C1 & C2). pose proof (bt_slant _ _ _ _ _ _ _ _ _ _ _ BA) as SP.
  fold rp S in C0, C1, C2, SP. change (ip_add (ig_in g) + ip_shift (ig_in g)) with ha in *. change (ip_ded (ig_in g) - ip_shift (ig_in g)) with hd in *.
  assert (SQ : forall q, 0 < q < PI -> 0 < S * sin q) by (intros; apply Rmult_lt_0_compat; [exact SP|apply sin_gt_0; lra]). pose proof PI_RGT_0.
  destruct (bt_circles _ _ _ _ _ _ _ _ _ _ _ BA (k_ho (ig_core g))) as ((_ & m1 & CA) & (_ & m2 & CD)).
  change (generate_reference_circles _ _ _ _ _ _) with rc in CA, CD. fold rp S in CA, CD.
  change (ip_add (ig_in g) + ip_shift (ig_in g)) with ha in *. change (ip_ded (ig_in g) - ip_shift (ig_in g)) with hd in *.
  replace (gm + - hd / S) with (gm - hd / S) in CD by (unfold Rdiv; ring).
  assert (RA : arc_radius (rc_a rc) = S * sin (gm + ha / S)) by (unfold arc_radius; rewrite CA; apply Rabs_right, Rgt_ge, SQ; lra).
  assert (RD : arc_radius (rc_d rc) = S * sin (gm - hd / S)) by (unfold arc_radius; rewrite CD; apply Rabs_right, Rgt_ge, SQ; lra).
  assert (GT : / 10000000000 < tip_gap t) by (rewrite G1; exact WL).
  assert (GR : / 10000000000 < root_gap t (2 * PI / ip_teeth (ig_in g))) by (rewrite E7, G0; exact WS).
  assert (D : axis_dist (n_point t 0) = S * sin (gm - hd / S) /\ axis_dist (n_point t 1) = S * sin (gm + ha / S)).
  { destruct (PS 0 ltac:(lra)) as (-> & _). destruct (PS 1 ltac:(lra)) as (-> & _). rewrite T0, T1.
    rewrite (bt_dist _ _ _ _ _ _ _ _ _ _ _ BA td (bt_td _ _ _ _ _ _ _ _ _ _ _ BA)), (bt_dist _ _ _ _ _ _ _ _ _ _ _ BA ta (bt_ta _ _ _ _ _ _ _ _ _ _ _ BA)).
    rewrite (bt_cone_td _ _ _ _ _ _ _ _ _ _ _ BA), (bt_cone_ta _ _ _ _ _ _ _ _ _ _ _ BA). split; reflexivity. }
  destruct D as (D0 & D1).
  assert (SS : 0 < g_scale (k_slice (ig_core g) z)) by (rewrite E6; exact SC).
  split.
  - destruct (C100_radii sv fs ts g z rc t FL SO SS) as (c & EC & Q1 & Q2).
    { rewrite RA. apply SQ. lra. } { rewrite RD. apply SQ. lra. }
    cbv zeta in Q1, Q2. exists c. split; [exact EC|].
    destruct (Rlt_dec _ (tip_gap t)) in Q1; [|contradiction]. destruct (Rlt_dec _ (root_gap t _)) in Q2; [|contradiction].
    rewrite Q1, Q2, D0, D1, E6, (bg_scale _ _ _ H). split; reflexivity.
  - assert (CR : c_R (polar_cone (2 * gm) rp) = S) by (apply cone_R; [unfold rp; lra|exact G]).
    set (od := Rmin 2 (rp - / 1000000)).
    assert (D6 : 0 < / 1000000 < 1 / 10) by lra.
    assert (OD : 0 < od < rp) by (unfold od; split; [apply Rmin_glb_lt; unfold rp; lra|pose proof (Rmin_r 2 (rp - / 1000000)); lra]).
    assert (AO : 0 < od / S /\ od / S < gm).
    { split; [apply Rdiv_lt_0_compat; [apply OD|exact SP]|]. pose proof (slant_gt rp gm ltac:(unfold rp; lra) G) as SG. fold S in SG.
      assert (od / S < rp / S) by (apply Rmult_lt_compat_r; [apply Rinv_0_lt_compat, SP|apply OD]). lra. }
    pose proof (C101_angles sv fs ts g z rc t (gm - od / S) (gm - hd / S) (gm + ha / S) FL SO SS) as CX. cbv zeta in CX. rewrite E5, E1, E8 in CX. fold rp in CX. rewrite CR in CX.
    rewrite CX; clear CX.
    + unfold folded. rewrite Rabs_right by lra. replace (2 * gm / 2) with gm by field.
      destruct (Rle_dec (gm - od / S) (PI / 2)); [|lra]. destruct (Rle_dec (gm - hd / S) (PI / 2)); [|lra]. destruct (Rle_dec (gm + ha / S) (PI / 2)); [|lra]. reflexivity.
    + lra.
    + lra.
    + unfold rp; lra.
    + unfold rp; field.
    + rewrite RA. apply SQ. lra.
    + rewrite RD. apply SQ. lra.
    + exact GT.
    + exact GR.
    + exact D1.
    + exact D0.
    + pose proof (C51_conic rp ha hd (k_ho (ig_core g)) (2 * gm) ltac:(lra) ltac:(lra) ltac:(unfold rp; lra)) as CO. cbv zeta in CO.
      unfold conic_radius in CO. rewrite CR in CO. replace (2 * gm / 2) with gm in CO by field. rewrite Rabs_right in CO by lra.
      unfold outside_depth in CO. rewrite E9 in CO. fold od in CO.
      replace (gm + - od / S) with (gm - od / S) in CO by (unfold Rdiv; ring). replace (gm + - hd / S) with (gm - hd / S) in CO by (unfold Rdiv; ring).
      destruct CO as (_ & _ & _ & (_ & m3 & CO)); try (apply Rgt_not_eq, SQ; lra).
      unfold arc_radius, rc. rewrite E9. fold rp. fold ha hd. rewrite CO. apply Rabs_right, Rgt_ge, SQ. lra.
    + lra.
    + lra.
    + lra.
Qed.

(** The searches can be answered: for every start [tl] and end [th] of the raw flank, solvers that find these and the crossings
    with the root and the tip circle. *)
Lemma rising_onto mu c t : rising mu c -> s2t c (t2s c t) = t.
Proof.
  intros R. destruct (rising_table mu c R) as (I & _). apply C28_s2t_inverts_t2s; [apply (ri_fresh _ _ R)|apply (ri_ndiv _ _ R)|exact I|apply (ri_dom _ _ R)].
Qed.
Lemma raw_table rp alpha pia g x : s2t (cone_octoid_curve rp alpha pia (2 * g)) x = s2t (arc_of (octoid_fn rp alpha 0 g) 0 1) x.
Proof.
  assert (E : (fun t => octoid t rp (1 / (1 / sphere_R rp (2 * g))) alpha 0 ORIGIN 0) = octoid_fn rp alpha 0 g).
  { unfold octoid_fn. rewrite Ropp_0. reflexivity. }
  unfold arc_of. rewrite <- E. reflexivity.
Qed.
Definition plane_answers (l h : R) : tsolver :=
  mkTs (fun _ _ _ _ _ => (false, 0, 0)) (fun _ _ _ _ g => if Req_EM_T g 1 then (true, h) else (true, l)) (fun _ g => g) (fun _ g => (0, g)) (fun r _ _ => (0, r)).

Theorem C111_solvable rp g alpha pia ha hd ho pitch lo hi td ta lm tl th : bevel_tooth rp g alpha pia ha hd pitch lo hi td ta ->
  lo <= tl -> tl < ta -> tl < th -> 0 < th -> th <= hi ->
  exists sv ts, lower_found ts rp alpha pia g lm /\
    let n := octoid_tooth ts rp alpha pia (2 * g) lm in
    let rc := generate_reference_circles rp ha hd ho (2 * g) rp in
    n_point n 0 = bevel_pt rp g alpha pia tl /\ n_point n 1 = bevel_pt rp g alpha pia th /\
    (forall c, n = Prim c -> tip_hit sv lo hi c (rc_a rc) pitch) /\
    (forall c, trim_tip sv n (rc_a rc) 0 pitch = Ok (Prim c) -> root_hit sv lo hi c (rc_d rc) pitch).
Proof.
  intros BT L0 LA LH H0 H1. pose proof (bt_g _ _ _ _ _ _ _ _ _ _ _ BT) as G. pose proof (bt_rp _ _ _ _ _ _ _ _ _ _ _ BT) as R0.
  pose proof (bt_range _ _ _ _ _ _ _ _ _ _ _ BT) as B. pose proof (bt_bevel _ _ _ _ _ _ _ _ _ _ _ BT) as BV.
  pose proof (bt_ta _ _ _ _ _ _ _ _ _ _ _ BT) as TA. pose proof (bt_td _ _ _ _ _ _ _ _ _ _ _ BT) as TD.
  assert (S : 0 < sin g < 1).
  { split; [apply sin_gt_0; lra|]. rewrite <- sin_PI2. apply sin_increasing_1; lra. }
  assert (ZB : forall h, 0 < h -> h * sin g <= PI / 2 -> bevel_range g alpha 0 h).
  { intros h Hh HS. pose proof B as [_ A _ _ _]. pose proof PI_RGT_0. split; [exact G|exact A| |exact HS|].
    - rewrite Rmult_0_l. lra.
    - unfold reach_sin. rewrite Rmult_0_l, sin_0. assert (0 < sin alpha * sin g) by (apply Rmult_lt_0_compat; [apply sin_gt_0; lra|apply S]). lra. }
  assert (B1 : bevel_range g alpha 0 1) by (apply ZB; [lra|pose proof PI2_3_2; lra]).
  assert (BH : bevel_range g alpha 0 th).
  { apply ZB; [exact H0|]. pose proof (br_hi _ _ _ _ B). assert (th * sin g <= hi * sin g) by (apply Rmult_le_compat_r; lra). lra. }
  set (F := octoid_fn rp alpha pia g).
  pose proof (arc_rising rp g alpha 0 0 1 0 1 R0 B1 ltac:(lra) ltac:(lra) ltac:(lra)) as RU.
  pose proof (arc_rising rp g alpha pia 0 th 0 th R0 BH ltac:(lra) ltac:(lra) ltac:(lra)) as RH. fold F in RH.
  pose proof (arc_rising rp g alpha pia lo hi tl th R0 B L0 LH H1) as RL. fold F in RL.
  pose proof (arc_rising rp g alpha pia lo hi tl ta R0 B L0 LA ltac:(lra)) as RA. fold F in RA.
  set (xh := t2s (arc_of (octoid_fn rp alpha 0 g) 0 1) th). set (xl := t2s (arc_of F 0 th) tl).
  set (ts := plane_answers xl xh).
  assert (EF : octoid_flank ts rp alpha pia (2 * g) = arc_of F 0 th).
  { destruct (flank_arc ts rp alpha pia g ltac:(lra)) as (h & E & EH). rewrite E. f_equal. rewrite EH. unfold ts, plane_answers. cbn [ts_plane].
    destruct (Req_EM_T 1 1); [|contradiction]. cbn [snd]. rewrite raw_table. apply (rising_onto vz _ _ RU). }
  assert (EN : octoid_tooth ts rp alpha pia (2 * g) lm = Prim (arc_of F tl th)).
  { unfold octoid_tooth, check_lower. destruct (Req_EM_T (2 * g) 0); [lra|]. rewrite EF. unfold cone_lower. unfold ts, plane_answers. cbn [ts_plane].
    destruct (Req_EM_T 0 1); [lra|]. rewrite arc_of_start. unfold xl. rewrite (rising_onto vz _ _ RH). reflexivity. }
  set (y0 := t2s (arc_of F tl th) ta). set (y1 := t2s (arc_of F tl ta) td).
  exists (answers (y0, bevel_angle g alpha pia ta / (2 * PI)) (y1, bevel_angle g alpha pia td / (2 * PI))), ts.
  split. { unfold lower_found, ts, plane_answers. cbn [ts_plane]. destruct (Req_EM_T 0 1); [lra|reflexivity]. }
  cbv zeta. rewrite EN. destruct (rising_ends vz _ RL) as (Q0 & Q1).
  split. { unfold n_point. rewrite prim_eval by reflexivity. rewrite arc_of_eval, Q0. apply octoid_fn_eq, BV. }
  split. { unfold n_point. rewrite prim_eval by reflexivity. rewrite arc_of_eval, Q1. apply octoid_fn_eq, BV. }
  destruct (bt_circles _ _ _ _ _ _ _ _ _ _ _ BT ho) as (CA & CD). pose proof PI_RGT_0.
  set (rc := generate_reference_circles rp ha hd ho (2 * g) rp) in *.
  assert (TH : tip_hit (answers (y0, bevel_angle g alpha pia ta / (2 * PI)) (y1, bevel_angle g alpha pia td / (2 * PI))) lo hi (arc_of F tl th) (rc_a rc) pitch).
  { exists y0, (bevel_angle g alpha pia ta / (2 * PI)). split.
    - unfold answers. cbn [sv_meet]. destruct (Req_EM_T (9 / 10) (9 / 10)); [reflexivity|contradiction].
    - assert (E : s2t (arc_of F tl th) y0 = ta) by (apply (rising_onto vz _ _ RL)). rewrite E. split; [|exact TA]. rewrite arc_of_eval, E.
      unfold F. rewrite octoid_fn_eq by exact BV. destruct (bt_polar _ _ _ _ _ _ _ _ _ _ _ BT ta TA) as (-> & _).
      rewrite (bt_cone_ta _ _ _ _ _ _ _ _ _ _ _ BT). rewrite (proj1 CA).
      replace (2 * PI * (bevel_angle g alpha pia ta / (2 * PI))) with (bevel_angle g alpha pia ta) by (field; lra). reflexivity. }
  split.
  - intros c E. injection E as <-. exact TH.
  - intros c E. pose proof (bt_trim_tip _ _ _ _ _ _ _ _ _ _ _ BT _ tl th (rc_a rc) CA TH) as T1. fold F in T1. rewrite T1 in E. apply Ok_inj in E. injection E as <-.
    exists y1, (bevel_angle g alpha pia td / (2 * PI)). split.
    + unfold answers. cbn [sv_meet]. destruct (Req_EM_T (3 / 10) (9 / 10)); [lra|reflexivity].
    + assert (E : s2t (arc_of F tl ta) y1 = td) by (apply (rising_onto vz _ _ RA)). rewrite E. split; [|exact TD]. rewrite arc_of_eval, E.
      unfold F. rewrite octoid_fn_eq by exact BV. destruct (bt_polar _ _ _ _ _ _ _ _ _ _ _ BT td TD) as (-> & _).
      rewrite (bt_cone_td _ _ _ _ _ _ _ _ _ _ _ BT). rewrite (proj1 CD).
      replace (2 * PI * (bevel_angle g alpha pia td / (2 * PI))) with (bevel_angle g alpha pia td) by (field; lra).
      replace (g + - hd / slant rp g) with (g - hd / slant rp g) by (unfold Rdiv; ring). reflexivity.
Qed.

(** ** Twelve teeth on a cone of 90 degrees, pressure angle 30 degrees; depths at which the flank crosses the cones where the gear has
    turned by a quarter pitch. *)
Definition ex_turn : R := PI / 24.
Definition ex_ha : R := slant 6 (PI / 4) * (cone_angle_at (PI / 4) (PI / 6) ex_turn - PI / 4).
Definition ex_hd : R := slant 6 (PI / 4) * (PI / 4 - cone_angle_at (PI / 4) (PI / 6) (- ex_turn)).

Lemma ex_bevel_numbers : exists w s x, 1 / 50 < w < 1 / 8 /\ 7 / 10 < s < 3 / 4 /\ 1 / 2 < cos x /\ 0 < x < 1 / 8 /\
  sin (PI / 4) = s /\ cos (PI / 4) = s /\ ex_turn * sin (PI / 4) = x /\ reach_sin (PI / 4) (PI / 6) ex_turn = w /\ reach_sin (PI / 4) (PI / 6) (- ex_turn) = - w.
Proof.
  pose proof PI_3. pose proof PI_4.
  assert (S2 : 14 / 10 < sqrt 2) by (apply sqrt_bound; lra). assert (S2' : sqrt 2 < 15 / 10) by (apply sqrt_bound_up; lra).
  assert (S3 : 17 / 10 < sqrt 3) by (apply sqrt_bound; lra). assert (S3' : sqrt 3 < 2) by (apply sqrt_bound_up; lra).
  assert (S : sin (PI / 4) = sqrt 2 / 2).
  { rewrite sin_PI4. pose proof (sqrt_sqrt 2 ltac:(lra)) as Q. field_simplify_eq; [|lra]. replace (sqrt 2 ^ 2) with (sqrt 2 * sqrt 2) by ring. lra. }
  assert (C : cos (PI / 4) = sqrt 2 / 2) by (rewrite <- S, sin_PI4; apply cos_PI4).
  assert (C6 : cos (PI / 6) = sqrt 3 / 2) by apply cos_PI6.
  set (x := ex_turn * sin (PI / 4)).
  assert (X : 8 / 100 < x < 1 / 8).
  { unfold x, ex_turn. rewrite S. split.
    - assert (3 / 24 * (14 / 20) < PI / 24 * (sqrt 2 / 2)) by (apply Rmult_le_0_lt_compat; lra). lra.
    - assert (PI / 24 * (sqrt 2 / 2) <= 4 / 24 * (sqrt 2 / 2)) by (apply Rmult_le_compat_r; lra). lra. }
  assert (SX : 4 / 100 < sin x < 1 / 8).
  { split.
    - pose proof (sin_concave (x / (PI / 2)) (PI / 2)) as K. rewrite sin_PI2 in K.
      replace (x / (PI / 2) * (PI / 2)) with x in K by (field; lra).
      assert (B : x / 2 <= x / (PI / 2) < 1).
      { split.
        - apply Rmult_le_compat_l; [lra|]. apply Rinv_le_contravar; lra.
        - apply Rmult_lt_reg_r with (PI / 2); [lra|]. replace (x / (PI / 2) * (PI / 2)) with x by (field; lra). lra. }
      specialize (K ltac:(lra) ltac:(lra)). lra.
    - pose proof (sin_lt_x x ltac:(lra)). lra. }
  assert (CX : 1 / 2 < cos x). { rewrite <- cos_PI3. apply cos_decreasing_1; lra. }
  exists (sqrt 3 / 2 * sin x), (sqrt 2 / 2), x. unfold reach_sin. rewrite C6. fold x.
  replace (- ex_turn * sin (PI / 4)) with (- x) by (unfold x; ring). rewrite sin_neg.
  assert (17 / 20 * (4 / 100) < sqrt 3 / 2 * sin x) by (apply Rmult_le_0_lt_compat; lra).
  assert (sqrt 3 / 2 * sin x < 1 * (1 / 8)) by (apply Rmult_le_0_lt_compat; lra).
  repeat split; try lra; try assumption; ring.
Qed.

Lemma ex_bevel : bevel_tooth 6 (PI / 4) (PI / 6) ex_turn ex_ha ex_hd (PI / 6) (- ex_turn) 1 (- ex_turn) ex_turn /\
  1 / 1000 < bevel_space 6 (PI / 4) (PI / 6) ex_turn ex_hd (PI / 6) (- ex_turn) /\ 1 / 1000 < bevel_land 6 (PI / 4) (PI / 6) ex_turn ex_ha ex_turn.
Proof.
  destruct ex_bevel_numbers as (w & s & x & W & S & CX & X & SG & CG & EX & WA & WD). pose proof PI_3. pose proof PI_4.
  assert (S3 : 17 / 10 < sqrt 3) by (apply sqrt_bound; lra). assert (S3' : sqrt 3 < 2) by (apply sqrt_bound_up; lra).
  assert (C6 : cos (PI / 6) = sqrt 3 / 2) by apply cos_PI6. assert (S6 : sin (PI / 6) = 1 / 2) by apply sin_PI6.
  assert (T0 : 0 < ex_turn < 1 / 5) by (unfold ex_turn; lra).
  assert (WW : 0 < w * w < 1 / 64).
  { split; [apply Rmult_lt_0_compat; lra|]. assert (w * w < 1 / 8 * (1 / 8)) by (apply Rmult_le_0_lt_compat; lra). lra. }
  set (q := sqrt (1 - w * w)).
  assert (QQ : q * q = 1 - w * w) by (apply sqrt_sqrt; lra).
  assert (Q : 9 / 10 < q < 1).
  { split; [apply sqrt_bound; lra|]. rewrite <- sqrt_1. apply sqrt_lt_1_alt. lra. }
  assert (SL : slant 6 (PI / 4) = 6 / s) by (unfold slant; rewrite SG; reflexivity).
  assert (SLP : 6 < slant 6 (PI / 4)).
  { rewrite SL. apply Rmult_lt_reg_r with s; [lra|]. replace (6 / s * s) with 6 by (field; lra). lra. }
  assert (B : bevel_range (PI / 4) (PI / 6) (- ex_turn) 1).
  { split; [lra|lra| | |].
    - replace (- ex_turn * sin (PI / 4)) with (- (ex_turn * sin (PI / 4))) by ring. rewrite EX. lra.
    - rewrite SG. lra.
    - rewrite WD, CG, S6, SG. assert (w * s < 1 / 8 * s) by (apply Rmult_lt_compat_r; lra). lra. }
  assert (K : w / q < 1 / 4). { apply Rmult_lt_reg_r with q; [lra|]. replace (w / q * q) with w by (field; lra). lra. }
  assert (K0 : 0 < w / q) by (apply Rdiv_lt_0_compat; lra).
  assert (CA : cone_cos (PI / 4) (PI / 6) (reach_sin (PI / 4) (PI / 6) ex_turn) = s * (q - w / q / 2)).
  { rewrite WA. unfold cone_cos. fold q. rewrite CG, S6, SG. field. lra. }
  assert (CD : cone_cos (PI / 4) (PI / 6) (reach_sin (PI / 4) (PI / 6) (- ex_turn)) = s * (q + w / q / 2)).
  { rewrite WD. unfold cone_cos. replace (- w * - w) with (w * w) by ring. fold q. rewrite CG, S6, SG. field. lra. }
  assert (BA : 0 < s * (q - w / q / 2) < 3 / 4).
  { split; [apply Rmult_lt_0_compat; lra|]. assert (s * (q - w / q / 2) < 3 / 4 * 1) by (apply Rmult_le_0_lt_compat; lra). lra. }
  assert (BD : 0 < s * (q + w / q / 2) < 9 / 10).
  { split; [apply Rmult_lt_0_compat; lra|]. assert (s * (q + w / q / 2) < 3 / 4 * (9 / 8)) by (apply Rmult_le_0_lt_compat; lra). lra. }
  assert (AA : PI / 4 + ex_ha / slant 6 (PI / 4) = cone_angle_at (PI / 4) (PI / 6) ex_turn) by (unfold ex_ha; field; lra).
  assert (AD : PI / 4 - ex_hd / slant 6 (PI / 4) = cone_angle_at (PI / 4) (PI / 6) (- ex_turn)) by (unfold ex_hd; field; lra).
  unfold cone_angle_at in AA, AD. rewrite CA in AA. rewrite CD in AD.
  assert (LT : acos (s * (q + w / q / 2)) < acos (s * (q - w / q / 2))).
  { assert (Z : s * (q - w / q / 2) < s * (q + w / q / 2)) by (apply Rmult_lt_compat_l; lra).
    pose proof (acos_bound_lt (s * (q + w / q / 2)) ltac:(lra)). pose proof (acos_bound_lt (s * (q - w / q / 2)) ltac:(lra)).
    apply cos_decreasing_0; try lra. rewrite !cos_acos by lra. exact Z. }
  assert (HP : acos (s * (q - w / q / 2)) <= PI / 2).
  { pose proof (acos_bound_lt (s * (q - w / q / 2)) ltac:(lra)). left. apply cos_decreasing_0; try lra. rewrite cos_PI2, cos_acos by lra. lra. }
  assert (CP : 3 / 4 < sqrt 3 / 2 * (sqrt 3 / 2) + 1 / 100). { pose proof (sqrt_sqrt 3 ltac:(lra)). lra. }
  (* the polar angles *)
  assert (YA : side_y (PI / 4) (PI / 6) ex_turn = - (w * (sqrt 3 / 2 * cos x))) by (unfold side_y; rewrite WA, C6, EX; ring).
  assert (YD : side_y (PI / 4) (PI / 6) (- ex_turn) = w * (sqrt 3 / 2 * cos x)).
  { unfold side_y. rewrite WD, C6. replace (- ex_turn * sin (PI / 4)) with (- x) by (rewrite <- EX; ring). rewrite cos_neg. ring. }
  set (y := w * (sqrt 3 / 2 * cos x)) in *.
  assert (Y : 8 / 1000 < y < 1).
  { assert (CXU := COS_bound x). assert (17 / 20 * (1 / 2) < sqrt 3 / 2 * cos x) by (apply Rmult_le_0_lt_compat; lra).
    assert (sqrt 3 / 2 * cos x <= 1 * 1) by (apply Rmult_le_compat; lra). unfold y. split.
    - assert (1 / 50 * (17 / 20 * (1 / 2)) < w * (sqrt 3 / 2 * cos x)) by (apply Rmult_le_0_lt_compat; lra). lra.
    - assert (w * (sqrt 3 / 2 * cos x) <= 1 / 8 * (1 * 1)) by (apply Rmult_le_compat; lra). lra. }
  assert (XA : side_x (PI / 4) (PI / 6) w = s * (1 - w * w + w / 2)) by (unfold side_x; rewrite SG, CG, S6; field).
  assert (XD : side_x (PI / 4) (PI / 6) (- w) = s * (1 - w * w - w / 2)) by (unfold side_x; rewrite SG, CG, S6; field).
  assert (XAB : 1 / 2 < side_x (PI / 4) (PI / 6) w < 1).
  { rewrite XA. split.
    - assert (7 / 10 * (9 / 10) < s * (1 - w * w + w / 2)) by (apply Rmult_le_0_lt_compat; lra). lra.
    - assert (s * (1 - w * w + w / 2) < 3 / 4 * (9 / 8)) by (apply Rmult_le_0_lt_compat; lra). lra. }
  assert (XDB : 1 / 2 < side_x (PI / 4) (PI / 6) (- w) < 1).
  { rewrite XD. split.
    - assert (7 / 10 * (8 / 10) < s * (1 - w * w - w / 2)) by (apply Rmult_le_0_lt_compat; lra). lra.
    - assert (s * (1 - w * w - w / 2) < 3 / 4 * (9 / 8)) by (apply Rmult_le_0_lt_compat; lra). lra. }
  assert (RT : forall d, 1 / 2 < d < 1 -> 8 / 1000 < y / d < 2).
  { intros d D. split.
    - apply Rmult_lt_reg_r with d; [lra|]. replace (y / d * d) with y by (field; lra). lra.
    - apply Rmult_lt_reg_r with d; [lra|]. replace (y / d * d) with y by (field; lra). lra. }
  assert (AT : forall r, 8 / 1000 < r < 2 -> 0 < atan r /\ 2 / 1000 < sin (atan r)).
  { intros r Hr. split; [rewrite <- atan_0; apply atan_increasing; lra|]. rewrite sin_atan. unfold Rsqr.
    assert (0 < r * r) by (apply Rmult_lt_0_compat; lra). assert (r * r < 2 * 2) by (apply Rmult_le_0_lt_compat; lra).
    assert (SR : sqrt (1 + r * r) < 3) by (apply sqrt_bound_up; lra). assert (SR0 : 0 < sqrt (1 + r * r)) by (apply sqrt_lt_R0; lra).
    apply Rmult_lt_reg_r with (sqrt (1 + r * r)); [exact SR0|]. replace (r / sqrt (1 + r * r) * sqrt (1 + r * r)) with r by (field; lra). lra. }
  assert (EA : bevel_angle (PI / 4) (PI / 6) ex_turn ex_turn = - atan (y / side_x (PI / 4) (PI / 6) w)).
  { unfold bevel_angle. rewrite YA, WA. replace (- y / side_x (PI / 4) (PI / 6) w) with (- (y / side_x (PI / 4) (PI / 6) w)) by (field; lra). rewrite atan_opp. ring. }
  assert (ED : bevel_angle (PI / 4) (PI / 6) ex_turn (- ex_turn) = - (PI / 6 / 2) + atan (y / side_x (PI / 4) (PI / 6) (- w))).
  { unfold bevel_angle. rewrite YD, WD. unfold ex_turn. field. }
  destruct (AT _ (RT _ XAB)) as (A0 & A1). destruct (AT _ (RT _ XDB)) as (D0 & D1).
  split; [|split].
  - split; [lra|exact B|lra| | | |lra|lra| | |lra|lra].
    + rewrite AD. apply acos_bound_lt. lra.
    + assert (Z : PI / 4 - ex_hd / slant 6 (PI / 4) < PI / 4 + ex_ha / slant 6 (PI / 4)) by (rewrite AD, AA; exact LT).
      assert (Z2 : 0 < (ex_ha + ex_hd) / slant 6 (PI / 4)) by (replace ((ex_ha + ex_hd) / slant 6 (PI / 4)) with (ex_ha / slant 6 (PI / 4) + ex_hd / slant 6 (PI / 4)) by (field; lra); lra).
      replace (ex_ha + ex_hd) with ((ex_ha + ex_hd) / slant 6 (PI / 4) * slant 6 (PI / 4)) by (field; lra). apply Rmult_lt_0_compat; lra.
    + rewrite AA. exact HP.
    + rewrite AD, CD, cos_acos by lra. reflexivity.
    + rewrite AA, CA, cos_acos by lra. reflexivity.
  - unfold bevel_space. rewrite AD, ED. replace (PI / 6 / 2 + (- (PI / 6 / 2) + atan (y / side_x (PI / 4) (PI / 6) (- w)))) with (atan (y / side_x (PI / 4) (PI / 6) (- w))) by ring.
    rewrite sin_acos by lra. unfold Rsqr. assert (1 / 10 < sqrt (1 - s * (q + w / q / 2) * (s * (q + w / q / 2)))).
    { apply sqrt_bound; try lra. - assert (s * (q + w / q / 2) * (s * (q + w / q / 2)) < 9 / 10 * (9 / 10)) by (apply Rmult_le_0_lt_compat; lra). lra.
      - assert (s * (q + w / q / 2) * (s * (q + w / q / 2)) < 9 / 10 * (9 / 10)) by (apply Rmult_le_0_lt_compat; lra). lra. }
    match goal with |- _ < 2 * (_ * ?r) * _ => set (z := r) in * end. assert (6 * (1 / 10) < slant 6 (PI / 4) * z) by (apply Rmult_le_0_lt_compat; lra).
    assert (2 * (6 * (1 / 10)) * (2 / 1000) < 2 * (slant 6 (PI / 4) * z) * sin (atan (y / side_x (PI / 4) (PI / 6) (- w)))) by (apply Rmult_le_0_lt_compat; lra). lra.
  - unfold bevel_land. rewrite AA, EA, Ropp_involutive. rewrite sin_acos by lra. unfold Rsqr. assert (1 / 10 < sqrt (1 - s * (q - w / q / 2) * (s * (q - w / q / 2)))).
    { apply sqrt_bound; try lra. - assert (s * (q - w / q / 2) * (s * (q - w / q / 2)) < 9 / 10 * (9 / 10)) by (apply Rmult_le_0_lt_compat; lra). lra.
      - assert (s * (q - w / q / 2) * (s * (q - w / q / 2)) < 9 / 10 * (9 / 10)) by (apply Rmult_le_0_lt_compat; lra). lra. }
    match goal with |- _ < 2 * (_ * ?r) * _ => set (z := r) in * end. assert (6 * (1 / 10) < slant 6 (PI / 4) * z) by (apply Rmult_le_0_lt_compat; lra).
    assert (2 * (6 * (1 / 10)) * (2 / 1000) < 2 * (slant 6 (PI / 4) * z) * sin (atan (y / side_x (PI / 4) (PI / 6) w))) by (apply Rmult_le_0_lt_compat; lra). lra.
Qed.

Example C111_solvable_example : exists sv ts,
  let n := octoid_tooth ts 6 (PI / 6) ex_turn (2 * (PI / 4)) None in
  let rc := generate_reference_circles 6 ex_ha ex_hd 2 (2 * (PI / 4)) 6 in
  lower_found ts 6 (PI / 6) ex_turn (PI / 4) None /\
  (forall c, n = Prim c -> tip_hit sv (- ex_turn) 1 c (rc_a rc) (PI / 6)) /\
  (forall c, trim_tip sv n (rc_a rc) 0 (PI / 6) = Ok (Prim c) -> root_hit sv (- ex_turn) 1 c (rc_d rc) (PI / 6)).
Proof.
  destruct ex_bevel as (BT & _). pose proof PI_3. pose proof PI_4. assert (T0 : 0 < ex_turn < 1 / 5) by (unfold ex_turn; lra).
  destruct (C111_solvable 6 (PI / 4) (PI / 6) ex_turn ex_ha ex_hd 2 (PI / 6) (- ex_turn) 1 (- ex_turn) ex_turn None (- ex_turn) 1 BT) as (sv & ts & A & B); try lra.
  cbv zeta in B. destruct B as (_ & _ & B & C). exists sv, ts. auto.
Qed.

Definition ex_bevel_param : iparam := mkIP 12 2 0 (2 * (PI / 4)) ORIGIN 0 3 false 0 0 0 0 ex_ha ex_hd (PI / 6) 0 0 false 0.
Definition ex_bevel_gear : igear := ig_new ex_bevel_param.
Lemma ex_bevel_made : bevel_gear ex_bevel_gear 12 (PI / 4) /\ (forall z, ig_pia ex_bevel_gear z = ex_turn) /\ ig_in ex_bevel_gear = ex_bevel_param /\
  k_ho (ig_core ex_bevel_gear) = 2.
Proof.
  assert (NN : ip_normalise ex_bevel_param = ex_bevel_param).
  { unfold ip_normalise, ex_bevel_param. cbn [ip_teeth]. destruct (Rlt_dec 12 0); [lra|reflexivity]. }
  assert (EI : ig_in ex_bevel_gear = ex_bevel_param) by (unfold ex_bevel_gear, ig_new; rewrite NN; reflexivity).
  assert (EC : ig_core ex_bevel_gear = calc_params ex_bevel_param) by (unfold ex_bevel_gear, ig_new; rewrite NN; reflexivity).
  split; [|split; [|split; [exact EI|rewrite EC; reflexivity]]].
  - split; rewrite ?EI, ?EC; try reflexivity; try lia.
    + cbn. lra.
    + cbn. apply rotation_I.
  - intros z. unfold ig_pia, crowning. rewrite EI, EC. cbn [ex_bevel_param calc_params k_rp k_tooth_angle ip_height ip_crown ip_teeth ip_shift ip_alpha ip_backlash].
    unfold ex_turn, Rdiv. field.
Qed.
Lemma ex_bevel_searched z : exists sv ts, bevel_at ex_bevel_gear 12 (PI / 4) z (- ex_turn) 1 (- ex_turn) ex_turn /\
  bevel_searched sv ts ex_bevel_gear 12 (PI / 4) z (- ex_turn) 1.
Proof.
  destruct ex_bevel as (BT & _). destruct C111_solvable_example as (sv & ts & A & B & C). destruct ex_bevel_made as (_ & PA & EI & HO). exists sv, ts.
  unfold bevel_at, bevel_searched. rewrite EI, HO, PA. cbn [ex_bevel_param ip_alpha ip_add ip_ded ip_shift]. cbv zeta.
  replace (12 / 2) with 6 by field. replace (2 * PI / 12) with (PI / 6) by field. rewrite Rplus_0_r, Rminus_0_r. auto.
Qed.
Lemma ex_bevel_wide z : let ip := ig_in ex_bevel_gear in
  / 10000000000 < bevel_space (12 / 2) (PI / 4) (ip_alpha ip) (ig_pia ex_bevel_gear z) (ip_ded ip - ip_shift ip) (2 * PI / 12) (- ex_turn) /\
  / 10000000000 < bevel_land (12 / 2) (PI / 4) (ip_alpha ip) (ig_pia ex_bevel_gear z) (ip_add ip + ip_shift ip) ex_turn.
Proof.
  destruct ex_bevel as (_ & A & B). destruct ex_bevel_made as (_ & PA & EI & _). rewrite EI, PA. cbn [ex_bevel_param ip_alpha ip_add ip_ded ip_shift]. cbv zeta.
  replace (12 / 2) with 6 by field. replace (2 * PI / 12) with (PI / 6) by field. rewrite Rplus_0_r, Rminus_0_r. split; lra.
Qed.

Example C111_point_example : exists delta phi, 0 < delta < PI /\
  c_fun (octoid_flank blind 6 (PI / 6) ex_turn (2 * (PI / 4))) (ex_turn / 2) =
  V (slant 6 (PI / 4) * sin delta * cos phi) (slant 6 (PI / 4) * sin delta * sin phi) (6 / tan (PI / 4) - slant 6 (PI / 4) * cos delta).
Proof.
  destruct ex_bevel as ([R0 B _ _ _ _ _ _ _ _ _ _] & _). pose proof PI_3. pose proof PI_4. assert (0 < ex_turn < 1 / 5) by (unfold ex_turn; lra).
  destruct (C111_point blind 6 (PI / 4) (PI / 6) ex_turn (- ex_turn) 1 (ex_turn / 2) R0 B ltac:(lra)) as (E & D). eauto.
Qed.
Example C111_outward_example : let c := octoid_flank blind 6 (PI / 6) ex_turn (2 * (PI / 4)) in
  cone_angle_at (PI / 4) (PI / 6) 0 < cone_angle_at (PI / 4) (PI / 6) ex_turn /\ vz (c_fun c 0) < vz (c_fun c ex_turn).
Proof.
  destruct ex_bevel as ([R0 B _ _ _ _ _ _ _ _ _ _] & _). pose proof PI_3. pose proof PI_4. assert (0 < ex_turn < 1 / 5) by (unfold ex_turn; lra).
  destruct (C111_outward blind 6 (PI / 4) (PI / 6) ex_turn (- ex_turn) 1 0 ex_turn R0 B ltac:(lra) ltac:(lra) ltac:(lra)) as (E & _ & Z & _). auto.
Qed.
Example C111_flank_example : exists sv ts t, let n := octoid_tooth ts 6 (PI / 6) ex_turn (2 * (PI / 4)) None in
  trim_flank sv n (generate_reference_circles 6 ex_ha ex_hd 2 (2 * (PI / 4)) 6) 0 0 (PI / 6) = Ok t /\ flank_ok t /\
  n_point t 0 = bevel_pt 6 (PI / 4) (PI / 6) ex_turn (- ex_turn) /\ n_point t 1 = bevel_pt 6 (PI / 4) (PI / 6) ex_turn ex_turn.
Proof.
  destruct ex_bevel as (BT & _). destruct C111_solvable_example as (sv & ts & A & B & C).
  destruct (C111_flank sv ts 6 (PI / 4) (PI / 6) ex_turn ex_ha ex_hd 2 (PI / 6) _ _ _ _ None BT A B C) as (t & T & TR & FO & _ & _ & PS & T0 & T1 & _).
  exists sv, ts, t. split; [exact TR|]. split; [exact FO|]. destruct (PS 0 ltac:(lra)) as (-> & _). destruct (PS 1 ltac:(lra)) as (-> & _). rewrite T0, T1. auto.
Qed.
Example C111_profile_example fs : exists sv ts p, let n := octoid_tooth ts 6 (PI / 6) ex_turn (2 * (PI / 4)) None in
  generate_reference_profile sv fs n 6 ex_ha ex_hd 2 (2 * (PI / 4)) 6 0 0 0 (PI / 6) (mkG ORIGIN UNIT3X3 1 0) = Ok p /\
  arc_radius (pr_ra p) = slant 6 (PI / 4) * sin (PI / 4 + ex_ha / slant 6 (PI / 4)).
Proof.
  destruct ex_bevel as (BT & _). destruct C111_solvable_example as (sv & ts & A & B & C).
  destruct (C111_profile sv fs ts 6 (PI / 4) (PI / 6) ex_turn ex_ha ex_hd 2 (PI / 6) _ _ _ _ (mkG ORIGIN UNIT3X3 1 0) None BT A B C) as (p & T & E & _ & RA & _).
  exists sv, ts, p. split; [exact E|exact RA].
Qed.
Example C111_gear_example fs z : exists sv ts p, ig_profile sv fs ts ex_bevel_gear z = Ok p /\
  n_point (pr_tooth p) 1 = bevel_pt (12 / 2) (PI / 4) (PI / 6) ex_turn ex_turn.
Proof.
  destruct ex_bevel_made as (BG & PA & EI & _). destruct (ex_bevel_searched z) as (sv & ts & BA & SE).
  destruct (C111_gear sv fs ts _ _ _ z _ _ _ _ BG BA SE) as (p & T & E & _ & _ & _ & _ & PS & _ & T1 & _). exists sv, ts, p. split; [exact E|].
  rewrite (PS 1 ltac:(lra)), T1, PA, EI. reflexivity.
Qed.
Example C111_outline_example fs z : exists sv ts p c, ig_profile sv fs ts ex_bevel_gear z = Ok p /\ generate_boundary p (PyInt 12) (2 * PI / 12) 12 = Ok c /\
  (forall s u, 0 <= s < 1 -> 0 <= u < 1 -> c_eval c s = c_eval c u -> s = u).
Proof.
  destruct ex_bevel_made as (BG & PA & EI & _). destruct (ex_bevel_searched z) as (sv & ts & BA & SE). destruct (ex_bevel_wide z) as (W1 & W2).
  destruct (C111_outline sv fs ts _ _ _ z _ _ _ _ BG BA SE W1 W2) as (p & c & E & EC & I & _). exists sv, ts, p, c. auto.
Qed.
Example C111_report_example fs : exists sv ts, let S := slant 6 (PI / 4) in
  ig_cone_angles sv fs ts ex_bevel_gear 0 = Ok [PI / 4 - 2 / S; PI / 4 - ex_hd / S; PI / 4; PI / 4 + ex_ha / S] /\
  exists c, ig_circles sv fs ts ex_bevel_gear 0 = Ok c /\ arc_radius (rc_a c) = 3 * (S * sin (PI / 4 + ex_ha / S)).
Proof.
  destruct ex_bevel_made as (BG & PA & EI & _). destruct (ex_bevel_searched 0) as (sv & ts & BA & SE). destruct (ex_bevel_wide 0) as (W1 & W2).
  destruct (C111_report sv fs ts _ _ _ 0 _ _ _ _ BG BA SE ltac:(rewrite EI; reflexivity) ltac:(lra) W1 W2) as ((c & EC & RA & _) & CA). exists sv, ts. cbv zeta in *.
  rewrite EI in CA, RA. cbn [ex_bevel_param ip_add ip_ded ip_shift ip_module] in CA, RA. rewrite Rplus_0_r in CA, RA. rewrite Rminus_0_r in CA.
  replace (12 / 2) with 6 in CA, RA by field. rewrite Rmin_left in CA by lra. split; [exact CA|]. exists c. split; [exact EC|]. rewrite RA. f_equal. field.
Qed.

(** Cases for the theorems on bevel gears of earlier properties. *)
Example C101_angles_example fs : exists sv ts ao ad aa, 0 < ad < aa /\ ig_cone_angles sv fs ts ex_bevel_gear 0 = Ok [folded ao; folded ad; PI / 4; folded aa].
Proof.
  destruct (C111_report_example fs) as (sv & ts & CA & _). destruct ex_bevel as (BT & _). destruct (bt_cones _ _ _ _ _ _ _ _ _ _ _ BT) as (C0 & C1 & C2).
  set (S := slant 6 (PI / 4)) in *. exists sv, ts, (PI / 4 - 2 / S), (PI / 4 - ex_hd / S), (PI / 4 + ex_ha / S). split; [lra|]. rewrite CA.
  pose proof (bt_slant _ _ _ _ _ _ _ _ _ _ _ BT) as SP. fold S in SP. assert (0 < 2 / S) by (apply Rdiv_lt_0_compat; lra). pose proof PI_RGT_0.
  unfold folded. destruct (Rle_dec (PI / 4 - 2 / S) (PI / 2)); [|lra]. destruct (Rle_dec (PI / 4 - ex_hd / S) (PI / 2)); [|lra].
  destruct (Rle_dec (PI / 4 + ex_ha / S) (PI / 2)); [|lra]. reflexivity.
Qed.
Example C103_bevel_refuted_example fs : exists sv ts c, ig_circles sv fs ts ex_bevel_gear 0 = Ok c /\ rc_set_center c (rc_center c) <> c.
Proof.
  destruct ex_bevel_made as (BG & PA & EI & HO). destruct (ex_bevel_searched 0) as (sv & ts & BA & SE).
  destruct (C111_gear sv fs ts _ _ _ 0 _ _ _ _ BG BA SE) as (p & T & E & _).
  assert (EC : ig_circles sv fs ts ex_bevel_gear 0 = Ok (radii_data (ig_core ex_bevel_gear) p)) by (unfold ig_circles; rewrite E; reflexivity).
  exists sv, ts, (radii_data (ig_core ex_bevel_gear) p). split; [exact EC|]. pose proof PI_RGT_0.
  pose proof (bevel_core _ _ _ 0 BG) as K. cbv zeta in K. destruct K as (E1 & E2 & E3 & E4 & E5 & E6 & E7 & SO & E8 & E9).
  apply (C103_bevel_refuted sv fs ts _ 0 p _ E EC SO); rewrite ?E1, ?E5, ?E6, ?E8, ?HO; lra.
Qed.
Example C97_bevel_depth_example z : exists ts f, ig_tooth ts ex_bevel_gear z = Ok (Prim f) /\ c_eval f 0 = bevel_pt 6 (PI / 4) (PI / 6) ex_turn (- ex_turn).
Proof.
  destruct ex_bevel_made as (BG & PA & EI & HO). destruct ex_bevel as (BT & _). pose proof PI_3. pose proof PI_4. assert (T0 : 0 < ex_turn < 1 / 5) by (unfold ex_turn; lra).
  destruct (C111_solvable 6 (PI / 4) (PI / 6) ex_turn ex_ha ex_hd 2 (PI / 6) (- ex_turn) 1 (- ex_turn) ex_turn None (- ex_turn) 1 BT) as (sv & ts & A & B); try lra.
  cbv zeta in B. destruct B as (P0 & _). exists ts.
  pose proof (bevel_core _ _ _ z BG) as K. cbv zeta in K. destruct K as (E1 & E2 & E3 & E4 & E5 & _).
  pose proof (C97_bevel_depth ts ex_bevel_gear z ltac:(rewrite EI; reflexivity) ltac:(rewrite E5; lra)) as D. cbv zeta in D. rewrite E1, E2, E5, PA, EI in D.
  cbn [ex_bevel_param ip_alpha] in D. replace (12 / 2) with 6 in D by field. destruct (D A) as (f & EF & F0 & _). exists f. split; [exact EF|].
  pose proof (bevel_ig_tooth ts _ _ _ z BG ltac:(lra)) as ET. rewrite EI, PA in ET. cbn [ex_bevel_param ip_alpha] in ET. replace (12 / 2) with 6 in ET by field.
  rewrite ET in EF. apply Ok_inj in EF. rewrite EF in P0. unfold n_point in P0.
  destruct (tooth_arc ts 6 (PI / 6) ex_turn (PI / 4) None ltac:(lra) A) as (a & b & EA). rewrite EF in EA. injection EA as ->. rewrite prim_eval in P0 by reflexivity. exact P0.
Qed.
