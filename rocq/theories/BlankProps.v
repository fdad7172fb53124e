(** Property C112: the sections of a bevel gear lie on the spheres, and inside the blank, that the solid is made from. *)
From Coq Require Import Nsatz Reals List ZArith Lra Bool Lia.
From Verif Require Import Num Vec Transform TransformProps Params ParamsProps Coords Interp Curve CurveLem CurveProps Chain ChainLem ChainProps MeshProps
  ArcLem ArcProps GearMath Tooth Wrapper Info RefLines RefLinesProps Profile ProfileLem ProfileProps Build Fillet FilletProps FlankProps Teeth Report
  UndercutProps CrownRackProps RackConjProps GenProps IndexProps RisingLem SpurProps ReportProps RadiiProps OutlineProps ReduceProps ConeFlankProps TightProps OctoidProps OctoidLem OctoidFlankProps Blank.
Import ListNotations.
Open Scope R_scope.

(** The square of the distance from the z axis. *)
Definition axis_sq (p : vec) : R := vx p * vx p + vy p * vy p.
(** A set of points with the symmetry of the axis. *)
Definition round (Q : vec -> Prop) : Prop := forall p q, axis_sq p = axis_sq q -> vz p = vz q -> Q p -> Q q.

(** ** Lemmas *)
Lemma flip_round p : axis_sq (flip p) = axis_sq p /\ vz (flip p) = vz p.
Proof. unfold axis_sq, flip. cbn [vx vy vz]. split; ring. Qed.
Lemma turn_round a p : axis_sq (turn a p) = axis_sq p /\ vz (turn a p) = vz p.
Proof. unfold axis_sq, turn. cbn [vx vy vz]. pose proof (sc1 a). split; [nsatz|reflexivity]. Qed.

(** Arcs about the axis keep the height and the distance. *)
Lemma arc_round p q : vz p = vz q -> axis_sq p = axis_sq q -> vx p * vy q - vy p * vx q <> 0 ->
  let c := from_2_point_center p q (axis_center p q) 0 true in forall s, axis_sq (c_eval c s) = axis_sq p /\ vz (c_eval c s) = vz p.
Proof.
  intros Z N C c s. set (ce := axis_center p q) in *.
  assert (CE : ce = V 0 0 (vz p)) by (unfold ce, axis_center; apply vec_eq; cbn; lra).
  assert (CX : cross (vsub p ce) (vsub q ce) = V 0 0 (vx p * vy q - vy p * vx q)).
  { rewrite CE. destruct p, q. cbn in Z. subst. apply vec_eq; vec_simpl; ring. }
  assert (CR : cross (vsub p ce) (vsub q ce) <> ORIGIN) by (rewrite CX; intros E; apply C; exact (f_equal vz E)).
  destruct (C33_two_point_center_shape p q ce 0 true CR) as (th & m & SH & TH & AX).
  change (from_2_point_center p q ce (IZR 0) true) with c in SH.
  assert (EM : exists yaw pitch roll, m = euler_zyx yaw pitch roll).
  { revert SH. unfold c, from_2_point_center, arc_from_frame. destruct (as_euler_zyx _) as [[yaw pitch] roll]. unfold arc_curve. rewrite arc_new_shape.
    intros SH. injection SH. intros <- _. eauto. }
  destruct EM as (yaw & pitch & roll & EM). subst m.
  destruct (C33_on_circle c _ _ _ _ _ _ s SH (norm_nonneg _)) as (D & O). rewrite AX, CX in O.
  set (w := vx p * vy q - vy p * vx q) in *. assert (NW : norm (V 0 0 w) <> 0).
  { intros E. apply norm_zero in E. apply C. exact (f_equal vz E). }
  assert (VZ : vz (c_eval c s) = vz p).
  { revert O. rewrite CE. unfold normalize. clearbody w. generalize (norm (V 0 0 w)) NW (c_eval c s) (vz p). clear - C. intros nw NW' [x y z] h O.
    assert (E : (z - h) * (/ nw * w) = 0) by (etransitivity; [|exact O]; vec_simpl; ring). cbn [vz].
    apply Rmult_integral in E. destruct E as [E|E]; [lra|]. exfalso. apply Rmult_integral in E. destruct E as [E|E]; [|contradiction].
    apply (Rinv_neq_0_compat nw); assumption. }
  split; [|exact VZ].
  assert (Q : dot (vsub (c_eval c s) ce) (vsub (c_eval c s) ce) = dot (vsub p ce) (vsub p ce)) by (rewrite <- !norm_sqr, D; reflexivity).
  revert Q. rewrite CE. unfold axis_sq. destruct (c_eval c s), p. cbn in VZ. subst. vec_simpl. intros Q. lra.
Qed.

Lemma closing_round p q r y : vz p = vz q -> axis_sq p = axis_sq q -> (0 < norm (vsub p q) -> vx p * vy q - vy p * vx q <> 0) ->
  forall c, In c (arc_if (closing_arc p q (axis_center p q) r y)) -> forall s, axis_sq (c_eval c s) = axis_sq p /\ vz (c_eval c s) = vz p.
Proof.
  intros Z N C c I s. assert (P : 0 < / 10000000000) by lra.
  destruct (Rlt_dec (/ 10000000000) (norm (vsub p q))) as [G|G].
  - rewrite closing_active in I by exact G. unfold arc_if in I.
    destruct (axis_arc p q Z N) as (_ & A & _); [apply C; lra|]. rewrite A in I. destruct I as [<-|[]]. apply arc_round; [exact Z|exact N|apply C; lra].
  - rewrite closing_inactive in I by lra. destruct I.
Qed.

Lemma inside_list (Q : vec -> Prop) cs : List.Forall (fun c => 0 < c_length c) cs -> cs <> [] -> (forall c, In c cs -> forall s, 0 <= s <= 1 -> Q (c_eval c s)) -> inside Q cs.
Proof.
  intros P. induction P as [|c cs PC P IH]; intros NE H; [congruence|].
  assert (I1 : inside Q [c]) by (apply inside_one; [exact PC|apply H; left; reflexivity]).
  destruct cs as [|d cs]; [exact I1|]. change (c :: d :: cs) with ([c] ++ d :: cs). apply inside_app.
  - split; [discriminate|]. constructor; [exact PC|constructor].
  - split; [discriminate|exact P].
  - exact I1.
  - apply IH; [discriminate|]. intros e E. apply H. right. exact E.
Qed.
Lemma inside_opt (Q : vec -> Prop) a b : List.Forall (fun c => 0 < c_length c) a -> (forall c, In c a -> forall s, 0 <= s <= 1 -> Q (c_eval c s)) ->
  positive b -> inside Q b -> positive (a ++ b) /\ inside Q (a ++ b).
Proof.
  intros PA HA PB IB. destruct a as [|c a]; [split; assumption|].
  assert (PP : positive (c :: a)) by (split; [discriminate|exact PA]).
  split.
  - split; [discriminate|]. apply Forall_app. split; [exact PA|apply PB].
  - apply inside_app; [exact PP|exact PB| |exact IB]. apply inside_list; [exact PA|discriminate|exact HA].
Qed.

Lemma outline_round t pitch p (Q : vec -> Prop) : flank_ok t -> List.Forall fresh (leaves t) -> not_opposite t pitch -> assembled t pitch p -> round Q ->
  (forall s, 0 <= s <= 1 -> Q (n_point t s)) -> forall s, 0 <= s <= 1 -> Q (n_point (pr_chain p) s).
Proof.
  intros F FR NO AS RD H.
  destruct (rd_facts t pitch p NO AS) as (_ & PD & _). destruct (ra_facts t pitch p NO AS) as (_ & PA & _).
  destruct (mirror_curve_facts t F) as (FM & AM & LM & I & _ & _).
  destruct (chain_pieces t pitch p F FR NO AS) as (EC & EL).
  assert (PT : positive (leaves t)) by (split; [apply active_leaves, F|apply (fo_pos t F)]). pose proof (positive_total _ PT) as TP.
  assert (I2 : inside Q (leaves t)).
  { intros x X. replace (walk (leaves t) x) with (n_point t (x / total (leaves t))).
    - apply H. apply div_01; [exact TP|lra].
    - rewrite (leaves_walk t (fo_act t F) (fo_pos t F)). f_equal. field. lra. }
  assert (I4 : inside Q [mirror_curve t]).
  { apply inside_one; [exact LM|]. intros s S.
    set (c := mirror_curve t) in *.
    assert (EV : c_eval c s = flip (n_point t (s2t c s))).
    { unfold c_eval, c_fun. unfold c at 1, mirror_curve. cbn [new_curve update_lengths c_shape]. rewrite shape_fun_gen. apply flip_mirror. }
    assert (T0 : c_t0 c = 1) by reflexivity. assert (T1 : c_t1 c = 0) by reflexivity. assert (ND : (2 <= c_ndiv c)%nat) by apply NDIV_2.
    destruct (C28_ends c FM ND I) as (S0 & S1). rewrite T0 in S0. rewrite T1 in S1.
    pose proof (C28_strictly_monotone_reversed c FM ND I ltac:(lra)) as MO.
    assert (BD : 0 <= s2t c s <= 1).
    { split.
      - destruct (Req_dec s 1) as [->|N]; [lra|]. rewrite <- S1. left. apply MO; lra.
      - destruct (Req_dec s 0) as [->|N]; [lra|]. rewrite <- S0. left. apply MO; lra. }
    rewrite EV. destruct (flip_round (n_point t (s2t c s))) as (E1 & E2). apply (RD (n_point t (s2t c s))); [symmetry; exact E1|symmetry; exact E2|apply H, BD]. }
  assert (P4 : positive [mirror_curve t]) by (split; [discriminate|]; constructor; [exact LM|constructor]).
  assert (HA : forall c, In c (arc_if (pr_ra p)) -> forall s, 0 <= s <= 1 -> Q (c_eval c s)).
  { intros c IC s _. destruct (as_ra _ _ _ AS) as (r & y & E). rewrite E in IC. destruct (flip_round (n_point t 1)) as (E1 & E2).
    destruct (closing_round _ _ r y ltac:(symmetry; exact E2) ltac:(symmetry; exact E1) (fun N => tip_cross _ N (proj1 NO)) c IC s) as (D1 & D2).
    apply (RD (n_point t 1)); [symmetry; exact D1|symmetry; exact D2|apply H; lra]. }
  assert (HD : forall c, In c (arc_if (pr_rd p)) -> forall s, 0 <= s <= 1 -> Q (c_eval c s)).
  { intros c IC s _. destruct (as_rd _ _ _ AS) as (r & y & E). rewrite E in IC.
    destruct (flip_round (n_point t 0)) as (E1 & E2). destruct (turn_round (- pitch) (flip (n_point t 0))) as (E3 & E4).
    destruct (closing_round _ _ r y ltac:(rewrite E4; exact E2) ltac:(rewrite E3; exact E1) (fun N => root_cross _ _ N (proj2 NO)) c IC s) as (D1 & D2).
    apply (RD (n_point t 0)); [rewrite D1, E3, E1; reflexivity|rewrite D2, E4, E2; reflexivity|apply H; lra]. }
  destruct (inside_opt Q _ _ PA HA P4 I4) as (P3 & I3).
  assert (P2 : positive (leaves t ++ arc_if (pr_ra p) ++ [mirror_curve t])).
  { split; [intros E; apply app_eq_nil in E; apply PT, E|]. apply Forall_app. split; [apply PT|apply P3]. }
  assert (I23 : inside Q (leaves t ++ arc_if (pr_ra p) ++ [mirror_curve t])) by (apply inside_app; assumption).
  destruct (inside_opt Q _ _ PD HD P2 I23) as (P1 & I1).
  assert (LV : leaves (pr_chain p) = pieces t p) by (rewrite EC; exact EL). unfold pieces in LV.
  set (cs := arc_if (pr_rd p) ++ _) in *. pose proof (positive_total _ P1) as TC.
  assert (AC : n_active (pr_chain p) = true) by (apply active_leaves; rewrite LV; apply P1).
  intros s S. rewrite (leaves_walk (pr_chain p) AC); rewrite LV; [|apply P1]. apply I1.
  split; [apply Rmult_le_pos; lra|]. rewrite <- (Rmult_1_l (total cs)) at 2. apply Rmult_le_compat_r; lra.
Qed.

(** ** C112 *)
(** The outline of a tooth has the heights and the distances from the axis of its flank only: whatever holds at every point of the
    flank and looks the same from all sides holds along the whole outline. *)
Theorem C112_heights sv tooth rc tipf rootf pitch t p (Q : vec -> Prop) :
  List.Forall fresh (leaves tooth) -> trim_flank sv tooth rc tipf rootf pitch = Ok t -> flank_ok t -> not_opposite t pitch ->
  trim_reference_profile sv tooth rc tipf rootf pitch = Ok p -> round Q ->
  (forall s, 0 <= s <= 1 -> Q (n_point t s)) -> forall s, 0 <= s <= 1 -> Q (n_point (pr_chain p) s).
Proof.
  intros FT TR F NO EP RD H. destruct (trimmed_assembled _ _ _ _ _ _ _ _ FT TR F NO EP) as (FR & AS). apply (outline_round t pitch p Q F FR NO AS RD H).
Qed.

(** Points at the cone angle [b] of the sphere about the apex through the pitch circle. *)
Definition on_cone_at (rp g b : R) (p : vec) : Prop := axis_sq p = (slant rp g * sin b) * (slant rp g * sin b) /\ vz p = rp / tan g - slant rp g * cos b.
(** Between two such cones. *)
Definition in_band (rp g lo hi : R) (p : vec) : Prop := exists b, lo <= b <= hi /\ on_cone_at rp g b p.

Lemma band_round rp g lo hi : round (in_band rp g lo hi).
Proof. intros p q E Z (b & B & A & H). exists b. split; [exact B|]. split; congruence. Qed.

(** The flank, the assembled outline and the outside circle of a section of a bevel gear. *)
Lemma bevel_section sv fs ts g n gm z lo hi td ta : bevel_gear g n gm -> bevel_at g n gm z lo hi td ta -> bevel_searched sv ts g n gm z lo hi ->
  let ip := ig_in g in let rp := IZR n / 2 in let S := slant rp gm in
  let ha := ip_add ip + ip_shift ip in let hd := ip_ded ip - ip_shift ip in
  exists p t, ig_profile sv fs ts g z = Ok p /\ flank_ok t /\ List.Forall fresh (leaves t) /\ not_opposite t (2 * PI / IZR n) /\
    assembled t (2 * PI / IZR n) p /\ (forall s, 0 <= s <= 1 -> in_band rp gm (gm - hd / S) (gm + ha / S) (n_point t s)) /\
    on_cone_at rp gm (gm - hd / S) (n_point t 0).
Proof.
  intros H BA SE ip rp S ha hd. pose proof (bt_g _ _ _ _ _ _ _ _ _ _ _ BA) as G.
  destruct (C111_gear sv fs ts g n gm z lo hi td ta H BA SE) as (p & T' & EP & _). destruct SE as (LF & TF & RF).
  destruct (C111_flank sv ts _ _ _ _ _ _ _ _ _ _ _ _ _ BA LF TF RF) as (t & T & TR & FO & NO & FR & PS & T0 & T1 & MO & ON).
  pose proof (bevel_core g n gm z H) as K. cbv zeta in K. destruct K as (E1 & E2 & E3 & E4 & E5 & E6 & E7 & SO & _).
  pose proof EP as EQ. unfold ig_profile in EQ. rewrite (bevel_ig_tooth ts g n gm z H) in EQ by lra. cbn [bind] in EQ.
  rewrite E1, E3, E4, E5, E7, (bg_tip _ _ _ H), (bg_root _ _ _ H), (bg_trunc _ _ _ H) in EQ. unfold generate_reference_profile in EQ.
  set (tooth := octoid_tooth ts (IZR n / 2) (ip_alpha (ig_in g)) (ig_pia g z) (2 * gm) None) in *.
  set (rc := generate_reference_circles (IZR n / 2) (ip_add (ig_in g) + ip_shift (ig_in g)) (ip_ded (ig_in g) - ip_shift (ig_in g))
               (k_ho (ig_core g)) (2 * gm) (IZR n / 2)) in *.
  replace (reduced_circles fs tooth rc 0 (2 * gm) (IZR n / 2)) with rc in EQ
    by (unfold reduced_circles; destruct (Rlt_dec 0 0); [lra|reflexivity]).
  replace (filleted_flank fs tooth rc 0 0 (2 * PI / IZR n)) with (Ok tooth) in EQ
    by (unfold filleted_flank; destruct (Rlt_dec 0 0); [lra|reflexivity]).
  cbn [bind] in EQ. destruct (trim_reference_profile sv tooth rc 0 0 (2 * PI / IZR n)) as [p0|] eqn:ET; [|discriminate].
  cbn [bind] in EQ. apply Ok_inj in EQ.
  destruct (trimmed_assembled _ _ _ _ _ _ _ _ FR TR FO NO ET) as (FR' & AS).
  assert (PT : forall u, lo <= u <= hi -> on_cone_at rp gm (cone_angle_at gm (ip_alpha ip) u) (bevel_pt rp gm (ip_alpha ip) (ig_pia g z) u)).
  { intros u U. destruct (bt_polar _ _ _ _ _ _ _ _ _ _ _ BA u U) as (E & _). fold ip rp S in E. rewrite E. unfold on_cone_at, axis_sq. cbn [vx vy vz]. fold S.
    split; [|reflexivity]. pose proof (sc1 (bevel_angle gm (ip_alpha ip) (ig_pia g z) u)) as C. revert C.
    generalize (sin (bevel_angle gm (ip_alpha ip) (ig_pia g z) u)) (cos (bevel_angle gm (ip_alpha ip) (ig_pia g z) u)) (S * sin (cone_angle_at gm (ip_alpha ip) u)).
    clear. intros. nsatz. }
  pose proof (bt_td _ _ _ _ _ _ _ _ _ _ _ BA) as TD. pose proof (bt_ta _ _ _ _ _ _ _ _ _ _ _ BA) as TA.
  pose proof (bt_cone_td _ _ _ _ _ _ _ _ _ _ _ BA) as CD. pose proof (bt_cone_ta _ _ _ _ _ _ _ _ _ _ _ BA) as CA.
  fold ip rp S in CD, CA. change (ip_ded ip - ip_shift ip) with hd in CD. change (ip_add ip + ip_shift ip) with ha in CA.
  exists p, t. split; [exact EP|]. split; [exact FO|]. split; [exact FR'|]. split; [exact NO|].
  split; [subst p; destruct AS; split; assumption|]. split.
  - intros s HS. destruct (PS s HS) as (E & B). fold ip rp in E. rewrite E. exists (cone_angle_at gm (ip_alpha ip) (T s)). split; [|apply PT; lra].
    rewrite <- CD, <- CA. split.
    + destruct (Req_dec td (T s)) as [<-|N]; [lra|]. left. apply (bt_cone_rises _ _ _ _ _ _ _ _ _ _ _ BA); lra.
    + destruct (Req_dec (T s) ta) as [<-|N]; [lra|]. left. apply (bt_cone_rises _ _ _ _ _ _ _ _ _ _ _ BA); lra.
  - destruct (PS 0 ltac:(lra)) as (E & _). rewrite E, T0, <- CD. apply PT. lra.
Qed.

(** The outside circle. *)
Definition outside_angle (n : Z) (gm ho : R) : R := gm - outside_depth (IZR n / 2) ho / slant (IZR n / 2) gm.
Lemma outside_external n gm : (0 < n)%Z -> 0 < gm < PI / 2 -> 0 < outside_angle n gm 2 < gm.
Proof.
  intros N G. assert (HN : 1 <= IZR n) by (apply IZR_le; lia). unfold outside_angle, outside_depth. set (rp := IZR n / 2).
  assert (D6 : 0 < / 1000000 < 1 / 10) by lra. set (od := Rmin 2 (rp - / 1000000)).
  assert (SP : 0 < slant rp gm) by (apply slant_pos; [unfold rp; lra|pose proof PI_RGT_0; lra]).
  assert (OD : 0 < od < rp) by (unfold od; split; [apply Rmin_glb_lt; unfold rp; lra|pose proof (Rmin_r 2 (rp - / 1000000)); lra]).
  pose proof (slant_gt rp gm ltac:(unfold rp; lra) G) as SG.
  assert (0 < od / slant rp gm) by (apply Rdiv_lt_0_compat; [apply OD|exact SP]).
  assert (od / slant rp gm < rp / slant rp gm) by (apply Rmult_lt_compat_r; [apply Rinv_0_lt_compat, SP|apply OD]). lra.
Qed.
Lemma bevel_outside sv fs ts g n gm z p : bevel_gear g n gm -> 0 < gm < PI / 2 -> ig_profile sv fs ts g z = Ok p ->
  let b := outside_angle n gm (k_ho (ig_core g)) in let rp := IZR n / 2 in let S := slant rp gm in 0 < b < PI ->
  arc_radius (pr_ro p) = S * sin b /\ arc_center (pr_ro p) = V 0 0 (rp / tan gm - S * cos b) /\ pr_trf p = k_slice (ig_core g) z.
Proof.
  intros H G EP b rp S B. pose proof (bevel_core g n gm z H) as K. cbv zeta in K. destruct K as (E1 & E2 & E3 & E4 & E5 & E6 & E7 & SO & _).
  assert (HN : 1 <= IZR n) by (apply IZR_le; pose proof (bg_n _ _ _ H); lia).
  assert (SP : 0 < S) by (apply slant_pos; [unfold rp; lra|pose proof PI_RGT_0; lra]).
  pose proof (profile_outside _ _ _ _ _ _ EP) as K. cbv zeta in K. destruct K as (OC & OR). rewrite E1, E5 in OC, OR. fold rp in OC, OR.
  assert (CR : c_R (polar_cone (2 * gm) rp) = S) by (apply cone_R; [unfold rp; lra|exact G]).
  assert (AB : gm + - outside_depth rp (k_ho (ig_core g)) / S = b) by (unfold b, outside_angle; fold rp S; unfold Rdiv; ring).
  assert (NZ : conic_radius (2 * gm) rp (- outside_depth rp (k_ho (ig_core g))) = S * sin b).
  { unfold conic_radius. rewrite CR. replace (2 * gm / 2) with gm by field. rewrite Rabs_right by lra. rewrite AB. reflexivity. }
  assert (LV : conic_level (2 * gm) rp (- outside_depth rp (k_ho (ig_core g))) = rp / tan gm - S * cos b).
  { unfold conic_level. rewrite CR. replace (2 * gm / 2) with gm by field. rewrite Rabs_right by lra. rewrite AB.
    assert (SG : sign (2 * gm) = 1) by (apply sign_pos; lra). rewrite SG.
    assert (SS : 0 < sin gm) by (apply sin_gt_0; lra). assert (CC : 0 < cos gm) by (apply cos_gt_0; lra).
    unfold S at 1, slant, tan. field. split; lra. }
  assert (P : 0 < S * sin b) by (apply Rmult_lt_0_compat; [exact SP|apply sin_gt_0; lra]).
  assert (CO : circle_about_z (rc_o (generate_reference_circles rp (k_ha (ig_core g)) (k_hd (ig_core g)) (k_ho (ig_core g)) (2 * gm) rp)) (S * sin b) (rp / tan gm - S * cos b)).
  { rewrite <- NZ, <- LV. unfold generate_reference_circles. cbn [rc_o]. rewrite outside_if, ref_point_conic by (unfold rp; lra). cbv zeta.
    apply ref_circle_at. fold (conic_radius (2 * gm) rp (- outside_depth rp (k_ho (ig_core g)))). rewrite NZ. lra. }
  destruct CO as (_ & m & CO). split; [|split].
  - rewrite OR. unfold arc_radius. rewrite CO. apply Rabs_right. lra.
  - rewrite OC. unfold arc_center. rewrite CO. reflexivity.
  - unfold ig_profile in EP. destruct (ig_tooth ts g z) as [tooth|]; cbn [bind] in EP; [|discriminate].
    destruct (profile_parts _ _ _ _ _ _ _ _ _ _ _ _ _ _ _ EP) as (f & t & p0 & _ & _ & _ & _ & _ & _ & TR). exact TR.
Qed.

(** The slices are scaled towards the apex. *)
Lemma slice_point g n gm z b q : bevel_gear g n gm -> 0 < gm < PI / 2 -> let rp := IZR n / 2 in let S := slant rp gm in
  on_cone_at rp gm b q -> let q' := apply_gear_transform q (k_slice (ig_core g) z) in
  axis_sq q' = ((S - z) * sin b) * ((S - z) * sin b) /\ vz q' = rp / tan gm - (S - z) * cos b.
Proof.
  intros H G rp S (A & Z) q'. pose proof (bevel_core g n gm z H) as K. cbv zeta in K. destruct K as (_ & _ & _ & _ & E5 & E6 & _ & _ & E8 & _).
  assert (KG : k_gamma (ig_core g) = gm) by (rewrite (bg_core _ _ _ H); cbn [with_trf calc_params k_gamma]; rewrite (bg_cone _ _ _ H); field).
  assert (HN : 1 <= IZR n) by (apply IZR_le; pose proof (bg_n _ _ _ H); lia).
  assert (SS : 0 < sin gm) by (apply sin_gt_0; lra). assert (CC : 0 < cos gm) by (apply cos_gt_0; lra).
  assert (SC : g_scale (k_slice (ig_core g) z) = (S - z) / S) by (rewrite E6; unfold S, slant, rp; field; split; lra).
  assert (S0 : S <> 0) by (apply Rgt_not_eq, slant_pos; [unfold rp; lra|pose proof PI_RGT_0; lra]).
  assert (RT : rp / tan gm = S * cos gm) by (unfold S, slant, tan; field; split; lra).
  unfold q'. rewrite apply_gear_transform_eq, SC. cbn [k_slice g_orient g_center g_angle]. rewrite KG, mapp_I.
  fold S in A, Z. rewrite RT in Z |- *.
  pose proof (sc1 (z * k_spiral (ig_core g))) as C. set (w := z * k_spiral (ig_core g)) in *. clearbody w. clear RT SC E5 E6 E8 KG q'.
  generalize dependent S. intros S A Z S0. destruct q as [x y h]. unfold axis_sq in *. vec_simpl. subst h. split.
  - transitivity ((S - z) / S * ((S - z) / S) * ((x * x + y * y) * (sin w * sin w + cos w * cos w))); [ring|]. rewrite A, C. field. exact S0.
  - field. exact S0.
Qed.

Lemma on_cone_dist rp g b p : 0 < rp -> 0 < g < PI / 2 -> on_cone_at rp g b p -> norm (vsub p (V 0 0 (rp / tan g))) = slant rp g.
Proof.
  intros R G (A & Z). assert (SP : 0 < slant rp g) by (apply slant_pos; [exact R|pose proof PI_RGT_0; lra]). apply norm_eq; [lra|].
  pose proof (sc1 b) as C. revert A Z. generalize (slant rp g) (rp / tan g). intros S w A Z. unfold axis_sq in A. destruct p as [x y h]. cbn [vx vy vz] in A, Z. vec_simpl.
  subst h. transitivity (x * x + y * y + S * cos b * (S * cos b)); [ring|]. rewrite A. transitivity (S * S * (sin b * sin b + cos b * cos b)); [ring|]. rewrite C. ring.
Qed.
Lemma two_point_radius p q ce s : norm (vsub (c_eval (from_2_point_center p q ce 0 true) s) ce) = norm (vsub p ce).
Proof.
  assert (E : exists a yaw pitch roll, c_shape (from_2_point_center p q ce 0 true) = SArc (norm (vsub p ce)) a ce (euler_zyx yaw pitch roll)).
  { unfold from_2_point_center, arc_from_frame. destruct (as_euler_zyx _) as [[yaw pitch] roll]. unfold arc_curve. rewrite arc_new_shape. do 4 eexists. reflexivity. }
  destruct E as (a & yaw & pitch & roll & E). apply (C33_on_circle _ _ _ _ _ _ _ s E (norm_nonneg _)).
Qed.
(** Where the gear places a point of the section at height [z]. *)
Definition placed (g : igear) (z : R) (q : vec) : vec := apply_gear_transform (apply_gear_transform q (k_slice (ig_core g) z)) (k_trf (ig_core g)).
(** The sphere the gear reports for the height [z] passes through the point [q] of the section. *)
Definition on_section_sphere (g : igear) (z : R) (q : vec) : Prop :=
  let '(c, r) := k_sphere_data (ig_core g) (k_trf (ig_core g)) z in norm (vsub (placed g z q) c) = r.

Lemma section_sphere g n gm z q : bevel_gear g n gm -> 0 < gm < PI / 2 -> let rp := IZR n / 2 in
  norm (vsub q (V 0 0 (rp / tan gm))) = slant rp gm -> on_section_sphere g z q.
Proof.
  intros H G rp D. pose proof (bevel_core g n gm z H) as K. cbv zeta in K. destruct K as (E1 & _ & _ & _ & E5 & E6 & _ & SO & E8 & _).
  assert (HN : 1 <= IZR n) by (apply IZR_le; pose proof (bg_n _ _ _ H); lia).
  assert (SS : 0 < sin gm) by (apply sin_gt_0; lra).
  unfold on_section_sphere, k_sphere_data, placed. unfold c_center, c_R, k_cone_at_z, gamma. cbn [base_radius c_trf cone_angle]. rewrite E1, E5. fold rp.
  replace (2 * gm / 2) with gm by field. rewrite smul_smul, apply_gear_mul_axis by reflexivity.
  rewrite C07_gear_transform_scales_distances by apply SO.
  rewrite C07_gear_transform_scales_distances by (cbn [k_slice g_orient]; apply rotation_I).
  replace (smul (/ tan gm * rp) OUT) with (V 0 0 (rp / tan gm)) by (apply vec_eq; cbn [smul OUT vx vy vz]; unfold Rdiv; ring).
  rewrite D. cbn [g_base t_scale g_mul g_scale]. change (1 - z * 2 * sin (k_gamma (ig_core g)) / num_teeth (k_tooth (ig_core g))) with (g_scale (k_slice (ig_core g) z)).
  rewrite <- Rmult_assoc, <- Rabs_mult, (Rmult_comm (rp / sin gm)), (Rabs_mult _ (rp / sin gm)). f_equal. unfold slant. symmetry. apply Rabs_right, Rgt_ge, Rdiv_lt_0_compat; [unfold rp; lra|exact SS].
Qed.

(** Every point of the outline of a section, of its outside arc and of the connectors between them lies on the sphere that
    [sphere_data_at_z] reports for the height of the section. *)
Theorem C112_sphere sv fs ts g n gm z lo hi td ta : bevel_gear g n gm -> bevel_at g n gm z lo hi td ta -> bevel_searched sv ts g n gm z lo hi ->
  0 < outside_angle n gm (k_ho (ig_core g)) < PI ->
  exists p, ig_profile sv fs ts g z = Ok p /\
    (forall s, 0 <= s <= 1 -> on_section_sphere g z (n_point (pr_chain p) s)) /\
    (forall s, on_section_sphere g z (c_eval (pr_ro p) s)) /\
    forall mid e, generate_profile_extensions p (k_cone (ig_core g)) (c_center (k_recipe_cone (ig_core g))) mid = Ok e -> forall s,
      on_section_sphere g z (c_eval (ex_ro0 e) s) /\ on_section_sphere g z (c_eval (ex_ro1 e) s) /\ on_section_sphere g z (c_eval (ex_ro2 e) s).
Proof.
  intros H BA SE B. pose proof (bt_g _ _ _ _ _ _ _ _ _ _ _ BA) as G. pose proof (bt_rp _ _ _ _ _ _ _ _ _ _ _ BA) as RP.
  destruct (bevel_section sv fs ts g n gm z lo hi td ta H BA SE) as (p & t & EP & F & FR & NO & AS & PS & _).
  destruct (bevel_outside sv fs ts g n gm z p H G EP B) as (OR & OC & _).
  set (rp := IZR n / 2) in *. set (S := slant rp gm) in *.
  assert (RO : forall s, norm (vsub (c_eval (pr_ro p) s) (V 0 0 (rp / tan gm))) = S).
  { intros s. destruct (as_ro _ _ _ AS) as (r & a & ce & y & E). revert OR OC. rewrite E. unfold arc_radius, arc_center, arc_curve. rewrite arc_new_shape. intros -> ->.
    fold (arc_curve (S * sin (outside_angle n gm (k_ho (ig_core g)))) a (V 0 0 (rp / tan gm - S * cos (outside_angle n gm (k_ho (ig_core g))))) y 0 0 true).
    rewrite yaw_arc. apply (on_cone_dist rp gm (outside_angle n gm (k_ho (ig_core g)))); [exact RP|exact G|]. split; [|reflexivity].
    unfold axis_sq. cbn [vx vy]. fold S. pose proof (sc1 (y + a * s)) as C. revert C. generalize (sin (y + a * s)) (cos (y + a * s)) (S * sin (outside_angle n gm (k_ho (ig_core g)))).
    clear. intros. nsatz. }
  exists p. split; [exact EP|]. split; [|split].
  - intros s HS. apply (section_sphere g n gm z _ H G).
    pose proof (outline_round t _ p _ F FR NO AS (band_round _ _ _ _) PS s HS) as (b & _ & OB). apply (on_cone_dist _ _ b); assumption.
  - intros s. apply (section_sphere g n gm z _ H G), RO.
  - intros mid e EX s. unfold generate_profile_extensions in EX. destruct (n_eval (pr_tooth p) 0) as [t0|]; cbn [bind] in EX; [|discriminate].
    destruct (n_eval (pr_chain p) 0) as [p0|]; cbn [bind] in EX; [|discriminate]. apply Ok_inj in EX. subst e. cbn [ex_ro0 ex_ro1 ex_ro2].
    pose proof (bevel_core g n gm z H) as K. cbv zeta in K. destruct K as (E1 & _ & _ & _ & E5 & _).
    assert (AP : c_center (k_recipe_cone (ig_core g)) = V 0 0 (rp / tan gm)).
    { unfold c_center, k_recipe_cone, gamma. cbn [base_radius c_trf cone_angle]. rewrite E1, E5. replace (2 * gm / 2) with gm by field. rewrite apply_transform_eq.
      unfold t_default. cbn [t_orient t_scale t_center]. rewrite mapp_I. fold rp. generalize rp (tan gm). clear. intros. apply vec_eq; vec_simpl; unfold Rdiv; ring. }
    rewrite AP, E5. unfold connector. destruct (Req_EM_T (2 * gm) 0); [lra|].
    repeat split; apply (section_sphere g n gm z _ H G); rewrite two_point_radius; apply RO.
Qed.

(** ** The blank *)
Lemma sphere_data_default g n gm z : bevel_gear g n gm -> 0 < gm < PI / 2 -> let rp := IZR n / 2 in
  k_sphere_data (ig_core g) g_default z = (V 0 0 (rp / tan gm), Rabs (slant rp gm - z)).
Proof.
  intros H G rp. pose proof (bevel_core g n gm z H) as K. cbv zeta in K. destruct K as (E1 & _ & _ & _ & E5 & E6 & _ & SO & E8 & _).
  assert (KG : k_gamma (ig_core g) = gm) by (rewrite (bg_core _ _ _ H); cbn [with_trf calc_params k_gamma]; rewrite (bg_cone _ _ _ H); field).
  assert (HN : 1 <= IZR n) by (apply IZR_le; pose proof (bg_n _ _ _ H); lia).
  assert (SS : 0 < sin gm) by (apply sin_gt_0; lra). assert (CC : 0 < cos gm) by (apply cos_gt_0; lra).
  unfold k_sphere_data, c_center, c_R, k_cone_at_z, gamma. cbn [base_radius c_trf cone_angle]. rewrite E1, E5. fold rp. replace (2 * gm / 2) with gm by field. f_equal.
  - rewrite smul_smul, apply_gear_mul_axis by reflexivity. rewrite apply_gear_axis.
    unfold k_slice. cbn [g_scale g_orient g_center]. rewrite mapp_I, KG, E8, apply_gear_transform_eq. unfold g_default. cbn [g_scale g_orient g_center g_angle].
    rewrite rotz_0, !mapp_I. unfold tan, rp. apply vec_eq; vec_simpl; try ring. field. repeat split; lra.
  - f_equal. cbn [g_base t_scale g_mul g_scale g_default k_slice]. rewrite KG, E8. unfold slant, rp. field. split; lra.
Qed.

Lemma axial_sq p : 0 <= axial p /\ axial p * axial p = axis_sq p.
Proof. split; [apply norm_nonneg|]. unfold axial. rewrite norm_sqr. unfold axis_sq. destruct p. vec_simpl. ring. Qed.
Lemma axial_eq p r : 0 <= r -> axis_sq p = r * r -> axial p = r.
Proof. intros R E. unfold axial. apply norm_eq; [exact R|]. rewrite <- E. unfold axis_sq. destruct p. vec_simpl. ring. Qed.
Lemma outer_circle sv fs ts g n gm z p : bevel_gear g n gm -> 0 < gm < PI / 2 -> ig_profile sv fs ts g z = Ok p ->
  let b := outside_angle n gm (k_ho (ig_core g)) in let rp := IZR n / 2 in let S := slant rp gm in 0 < b < PI ->
  outer_radius p = (S - z) * sin b /\ vz (outer_center p) = rp / tan gm - (S - z) * cos b.
Proof.
  intros H G EP b rp S B. destruct (bevel_outside sv fs ts g n gm z p H G EP B) as (OR & OC & TR). fold b rp S in OR, OC.
  pose proof (bevel_core g n gm z H) as K. cbv zeta in K. destruct K as (_ & _ & _ & _ & _ & E6 & _).
  assert (HN : 1 <= IZR n) by (apply IZR_le; pose proof (bg_n _ _ _ H); lia). assert (SS : 0 < sin gm) by (apply sin_gt_0; lra).
  split.
  - unfold outer_radius. rewrite OR, TR, E6. unfold S, slant, rp. field. split; lra.
  - unfold outer_center. rewrite OC, TR.
    assert (Q : on_cone_at rp gm b (V (S * sin b) 0 (rp / tan gm - S * cos b))) by (split; [unfold axis_sq; cbn [vx vy]; fold S; ring|reflexivity]).
    destruct (slice_point g n gm z b _ H G Q) as (_ & Z). fold rp S in Z. rewrite <- Z. rewrite !apply_gear_transform_eq. cbn [k_slice g_orient g_center g_angle]. rewrite !mapp_I.
    generalize (S * sin b) (rp / tan gm - S * cos b) (g_scale (k_slice (ig_core g) z)) (z * k_spiral (ig_core g)). clear. intros. vec_simpl. ring.
Qed.

(** The blank of an external bevel gear whose apex is [a] above the pitch circle, at the distance [S] from it, between the heights [z0] and [z1]:
    the points above the outside circle of the lower section that lie between the spheres of the two sections, or below the outside circle
    of the upper section within the cone through the two outside circles.  [b] is the half angle of that cone. *)
Definition blank (a S b z0 z1 : R) (q : vec) : Prop :=
  a - (S - z0) * cos b <= vz q /\
  (S - z1 <= norm (vsub q (V 0 0 a)) <= S - z0 \/
   (vz q <= a - (S - z1) * cos b /\ axial q * cos b <= (a - vz q) * sin b)).

Theorem C112_blank_shape sv fs ts g n gm z0 z1 p0 p1 : bevel_gear g n gm -> 0 < gm < PI / 2 -> ip_inside (ig_in g) = false ->
  ig_profile sv fs ts g z0 = Ok p0 -> ig_profile sv fs ts g z1 = Ok p1 -> let rp := IZR n / 2 in let S := slant rp gm in
  z0 < z1 -> z1 < S -> let b := gm - Rmin 2 (rp - / 1000000) / S in
  0 < b < gm /\ forall q, ref_solid (ig_core g) p0 p1 z0 z1 q <-> blank (rp / tan gm) S b z0 z1 q.
Proof.
  intros H G IN EP0 EP1 rp S Z01 Z1 b.
  assert (B : 0 < b < gm) by (apply (outside_external n gm (bg_n _ _ _ H) G)). split; [exact B|]. intros q. pose proof PI_RGT_0.
  pose proof (bevel_core g n gm z0 H) as K. cbv zeta in K. destruct K as (_ & _ & _ & _ & _ & _ & _ & _ & _ & E9). rewrite IN in E9.
  assert (BB : outside_angle n gm (k_ho (ig_core g)) = b) by (rewrite E9; reflexivity).
  destruct (outer_circle sv fs ts g n gm z0 p0 H G EP0 ltac:(rewrite BB; lra)) as (R0 & L0).
  destruct (outer_circle sv fs ts g n gm z1 p1 H G EP1 ltac:(rewrite BB; lra)) as (R1 & L1). rewrite BB in *. fold rp S in R0, R1, L0, L1.
  unfold ref_solid. rewrite !(sphere_data_default g n gm _ H G). fold rp S. rewrite !Rabs_Rabsolu. rewrite !(Rabs_right (S - _)) by lra.
  rewrite R0, R1, L0, L1. set (a := rp / tan gm). unfold union, shell, ball, make_cone, blank, union.
  assert (CB : 0 < cos b) by (apply cos_gt_0; lra). assert (SB : 0 < sin b) by (apply sin_gt_0; lra).
  set (d := norm (vsub q (V 0 0 a))). clearbody a d S. set (x := axial q). set (h := vz q). clearbody x h.
  split.
  - intros (U & L). split; [exact L|]. destruct U as [(U & N)|(u & U & EU & AU)].
    + left. split.
      * destruct (Rle_dec (S - z1) d) as [|N']; [assumption|]. exfalso. apply N. split; lra.
      * destruct U; lra.
    + right. assert (D : 0 <= (z1 - z0) * cos b) by (apply Rmult_le_pos; lra). split.
      * assert (u * ((z1 - z0) * cos b) <= 1 * ((z1 - z0) * cos b)) by (apply Rmult_le_compat_r; lra). lra.
      * assert (E : (a - h) * sin b = ((1 - u) * ((S - z0) * sin b) + u * ((S - z1) * sin b)) * cos b) by (rewrite EU; ring).
        rewrite E. apply Rmult_le_compat_r; [lra|exact AU].
  - intros (L & U). split; [|exact L]. destruct U as [U|(U & C)].
    + left. split; [left; lra|]. intros (_ & K). lra.
    + right. assert (DP : 0 < (z1 - z0) * cos b) by (apply Rmult_lt_0_compat; lra).
      set (u := (h - (a - (S - z0) * cos b)) / ((z1 - z0) * cos b)).
      assert (EU : h = a - (S - z0) * cos b + u * (a - (S - z1) * cos b - (a - (S - z0) * cos b))) by (unfold u; field; split; lra).
      exists u. split; [|split; [exact EU|]].
      * unfold u. split; [apply Rmult_le_reg_r with ((z1 - z0) * cos b); [exact DP|]|apply Rmult_le_reg_r with ((z1 - z0) * cos b); [exact DP|]];
          unfold Rdiv; rewrite Rmult_assoc, Rinv_l by lra; lra.
      * apply Rmult_le_reg_r with (cos b); [exact CB|]. eapply Rle_trans; [exact C|]. right. rewrite EU at 1. ring.
Qed.

(** With a root above the outside circle, every section between the two ends lies in the blank. *)
Theorem C112_blank sv fs ts g n gm z0 z z1 lo hi td ta p0 p1 : bevel_gear g n gm -> bevel_at g n gm z lo hi td ta -> bevel_searched sv ts g n gm z lo hi ->
  ip_inside (ig_in g) = false -> ig_profile sv fs ts g z0 = Ok p0 -> ig_profile sv fs ts g z1 = Ok p1 ->
  let ip := ig_in g in let rp := IZR n / 2 in z0 <= z <= z1 -> z0 < z1 -> z1 < slant rp gm ->
  ip_ded ip - ip_shift ip <= Rmin 2 (rp - / 1000000) ->
  exists p, ig_profile sv fs ts g z = Ok p /\
    forall s, 0 <= s <= 1 -> ref_solid (ig_core g) p0 p1 z0 z1 (apply_gear_transform (n_point (pr_chain p) s) (pr_trf p)).
Proof.
  intros H BA SE IN EP0 EP1 ip rp Z Z01 Z1 DD. pose proof (bt_g _ _ _ _ _ _ _ _ _ _ _ BA) as G. pose proof (bt_rp _ _ _ _ _ _ _ _ _ _ _ BA) as RP.
  destruct (C112_blank_shape sv fs ts g n gm z0 z1 p0 p1 H G IN EP0 EP1 Z01 Z1) as (B & SH).
  destruct (bevel_section sv fs ts g n gm z lo hi td ta H BA SE) as (p & t & EP & F & FR & NO & AS & PS & _).
  fold rp in B, SH, Z1, RP, PS. set (S := slant rp gm) in *. set (b := gm - Rmin 2 (rp - / 1000000) / S) in *.
  exists p. split; [exact EP|]. intros s HS. apply SH. clear SH.
  pose proof (bevel_core g n gm z H) as K. cbv zeta in K. destruct K as (_ & _ & _ & _ & _ & _ & _ & _ & _ & E9). rewrite IN in E9. pose proof PI_RGT_0.
  destruct (bevel_outside sv fs ts g n gm z p H G EP) as (_ & _ & TR). { rewrite E9. change (0 < b < PI). lra. }
  rewrite TR.
  destruct (outline_round t _ p _ F FR NO AS (band_round _ _ _ _) PS s HS) as (c & BC & OB).
  destruct (slice_point g n gm z c _ H G OB) as (X & Y). fold rp S in X, Y.
  pose proof (bt_cones _ _ _ _ _ _ _ _ _ _ _ BA) as (C0 & C1 & C2). fold rp S in C0, C1, C2.
  pose proof (bt_slant _ _ _ _ _ _ _ _ _ _ _ BA) as SP. fold rp S in SP.
  assert (BL : b <= c).
  { apply Rle_trans with (gm - (ip_ded ip - ip_shift ip) / S); [|unfold ip in *; lra]. unfold b. apply Rplus_le_compat_l, Ropp_le_contravar.
    apply Rmult_le_compat_r; [left; apply Rinv_0_lt_compat, SP|exact DD]. }
  assert (CU : c <= PI / 2) by (unfold ip in *; lra).
  assert (KC : cos c <= cos b) by (destruct (Req_dec b c) as [->|N]; [lra|left; apply cos_decreasing_1; lra]).
  assert (CC : 0 <= cos c) by (apply cos_ge_0; lra).
  split.
  - rewrite Y. assert ((S - z) * cos c <= (S - z0) * cos b) by (apply Rmult_le_compat; lra). lra.
  - left. assert (E : norm (vsub (apply_gear_transform (n_point (pr_chain p) s) (k_slice (ig_core g) z)) (V 0 0 (rp / tan gm))) = S - z).
    { apply norm_eq; [lra|]. pose proof (sc1 c) as Q. revert X Y Q. unfold axis_sq. generalize (apply_gear_transform (n_point (pr_chain p) s) (k_slice (ig_core g) z)) (rp / tan gm) (S - z).
      clear. intros [x y h] a w X Y Q. cbn [vx vy vz] in X, Y. subst h. vec_simpl. transitivity (x * x + y * y + w * cos c * (w * cos c)); [ring|]. rewrite X.
      transitivity (w * w * (sin c * sin c + cos c * cos c)); [ring|]. rewrite Q. ring. }
    rewrite E. lra.
Qed.

(** With a deeper root the bottom of the tooth gaps of the first section lies outside the blank. *)
Theorem C112_deep_root sv fs ts g n gm z0 z1 lo hi td ta p1 : bevel_gear g n gm -> bevel_at g n gm z0 lo hi td ta -> bevel_searched sv ts g n gm z0 lo hi ->
  ip_inside (ig_in g) = false -> ig_profile sv fs ts g z1 = Ok p1 -> let ip := ig_in g in let rp := IZR n / 2 in z0 < z1 -> z1 < slant rp gm ->
  Rmin 2 (rp - / 1000000) < ip_ded ip - ip_shift ip ->
  exists p0, ig_profile sv fs ts g z0 = Ok p0 /\
    ~ ref_solid (ig_core g) p0 p1 z0 z1 (apply_gear_transform (n_point (pr_chain p0) 1) (pr_trf p0)).
Proof.
  intros H BA SE IN EP1 ip rp Z01 Z1 DD. pose proof (bt_g _ _ _ _ _ _ _ _ _ _ _ BA) as G.
  destruct (bevel_section sv fs ts g n gm z0 lo hi td ta H BA SE) as (p0 & t & EP0 & F & FR & NO & AS & _ & P0).
  exists p0. split; [exact EP0|]. destruct (C112_blank_shape sv fs ts g n gm z0 z1 p0 p1 H G IN EP0 EP1 Z01 Z1) as (B & SH).
  rewrite SH. clear SH. fold rp in B, Z1, P0 |- *. set (S := slant rp gm) in *. set (b := gm - Rmin 2 (rp - / 1000000) / S) in *. intros (L & _). revert L.
  pose proof (bevel_core g n gm z0 H) as K. cbv zeta in K. destruct K as (_ & _ & _ & _ & _ & _ & _ & _ & _ & E9). rewrite IN in E9. pose proof PI_RGT_0.
  destruct (bevel_outside sv fs ts g n gm z0 p0 H G EP0) as (_ & _ & TR). { rewrite E9. change (0 < b < PI). lra. }
  rewrite TR. destruct (profile_ends t _ p0 F FR NO AS) as (E1 & _).
  replace (n_point (pr_chain p0) 1) with (flip (n_point t 0)) by (unfold n_point at 2; rewrite E1; reflexivity).
  pose proof (bt_cones _ _ _ _ _ _ _ _ _ _ _ BA) as (C0 & C1 & C2). pose proof (bt_slant _ _ _ _ _ _ _ _ _ _ _ BA) as SP. fold ip rp S in C0, C1, C2, SP.
  set (c := gm - (ip_ded ip - ip_shift ip) / S) in *.
  assert (OC : on_cone_at rp gm c (flip (n_point t 0))) by (destruct (flip_round (n_point t 0)) as (X & Y); destruct P0 as (P0 & P0'); split; [rewrite X; exact P0|rewrite Y; exact P0']).
  destruct (slice_point g n gm z0 c _ H G OC) as (_ & Y). fold rp S in Y. rewrite Y. intros L.
  assert (CB : c < b).
  { unfold c, b. apply Rplus_lt_compat_l, Ropp_lt_contravar. apply Rmult_lt_compat_r; [apply Rinv_0_lt_compat, SP|exact DD]. }
  assert (KC : cos b < cos c) by (apply cos_decreasing_1; lra).
  assert ((S - z0) * cos b < (S - z0) * cos c) by (apply Rmult_lt_compat_l; lra). lra.
Qed.

(** The sections beyond the two ends, by which the tooth surfaces are extended for the cut, lie outside the spherical shell: below the first
    end outside both spheres, beyond the second end inside both. *)
Theorem C112_cut sv fs ts g n gm z0 z z1 lo hi td ta : bevel_gear g n gm -> bevel_at g n gm z lo hi td ta -> bevel_searched sv ts g n gm z lo hi ->
  let rp := IZR n / 2 in z0 < z1 -> z1 < slant rp gm -> z < slant rp gm -> z < z0 \/ z1 < z ->
  exists p, ig_profile sv fs ts g z = Ok p /\ forall s, 0 <= s <= 1 ->
    let '(c0, r0) := k_sphere_data (ig_core g) g_default z0 in let '(c1, r1) := k_sphere_data (ig_core g) g_default z1 in
    ~ shell c0 r0 c1 r1 (apply_gear_transform (n_point (pr_chain p) s) (k_slice (ig_core g) z)).
Proof.
  intros H BA SE rp Z01 Z1 ZS ZZ. pose proof (bt_g _ _ _ _ _ _ _ _ _ _ _ BA) as G.
  destruct (bevel_section sv fs ts g n gm z lo hi td ta H BA SE) as (p & t & EP & F & FR & NO & AS & PS & _).
  fold rp in PS. set (S := slant rp gm) in *. exists p. split; [exact EP|]. intros s HS. rewrite !(sphere_data_default g n gm _ H G). fold rp S. rewrite !(Rabs_right (S - _)) by lra.
  destruct (outline_round t _ p _ F FR NO AS (band_round _ _ _ _) PS s HS) as (c & BC & OB).
  destruct (slice_point g n gm z c _ H G OB) as (X & Y). fold rp S in X, Y.
  assert (E : norm (vsub (apply_gear_transform (n_point (pr_chain p) s) (k_slice (ig_core g) z)) (V 0 0 (rp / tan gm))) = S - z).
  { apply norm_eq; [lra|]. pose proof (sc1 c) as Q. revert X Y Q. unfold axis_sq. generalize (apply_gear_transform (n_point (pr_chain p) s) (k_slice (ig_core g) z)) (rp / tan gm) (S - z).
    clear. intros [x y h] a w X Y Q. cbn [vx vy vz] in X, Y. subst h. vec_simpl. transitivity (x * x + y * y + w * cos c * (w * cos c)); [ring|]. rewrite X.
    transitivity (w * w * (sin c * sin c + cos c * cos c)); [ring|]. rewrite Q. ring. }
  unfold shell, union, ball. rewrite E. intros (U & N). destruct ZZ as [ZZ|ZZ]; [destruct U; lra|]. apply N. lra.
Qed.

(** The outside circles of the sections of a cylindrical ring gear lie on the outside ring. *)
Theorem C112_ring sv fs ts g n z p : cylindrical g n -> ip_inside (ig_in g) = true -> ig_profile sv fs ts g z = Ok p ->
  k_z_first (ig_core g) <= z <= k_z_last (ig_core g) ->
  exists r a y, pr_ro p = arc_curve r a ORIGIN y 0 0 true /\ forall s, outside_ring (ig_core g) (apply_gear_transform (c_eval (pr_ro p) s) (pr_trf p)).
Proof.
  intros H IN EP Z. assert (HN : 1 <= IZR n) by (apply IZR_le; pose proof (cy_n _ _ H); lia). set (rp := IZR n / 2).
  pose proof (profile_outside _ _ _ _ _ _ EP) as K. cbv zeta in K. destruct K as (OC & OR).
  assert (KR : k_rp (ig_core g) = rp) by (rewrite (cy_core _ _ H); cbn [with_trf calc_params k_rp]; rewrite (cy_teeth _ _ H); reflexivity).
  assert (KC : k_cone (ig_core g) = 0) by (rewrite (cy_core _ _ H); apply (cy_cone _ _ H)).
  assert (KG : k_gamma (ig_core g) = 0) by (rewrite (cy_core _ _ H); cbn [with_trf calc_params k_gamma]; rewrite (cy_cone _ _ H); field).
  assert (KO : k_ho (ig_core g) = -2) by (rewrite (cy_core _ _ H); cbn [with_trf calc_params k_ho]; rewrite IN; reflexivity).
  assert (KN : num_teeth (k_tooth (ig_core g)) = IZR n).
  { rewrite (cy_core _ _ H). cbn [with_trf calc_params k_tooth]. rewrite (cy_teeth _ _ H). unfold tp_make. destruct (Rlt_dec (IZR n) 0); [lra|reflexivity]. }
  rewrite KR, KC, KO in OC, OR. assert (OD : outside_depth rp (-2) = -2) by (unfold outside_depth; apply Rmin_left; unfold rp; lra).
  unfold generate_reference_circles in OC, OR. cbn [rc_o] in OC, OR. rewrite outside_if, OD, ref_point_cyl in OC, OR by (unfold rp; lra).
  assert (RR : rp + - -2 <> 0) by (unfold rp; lra). destruct (ref_circle_at (rp + - -2) 0 RR) as (_ & m & SH).
  unfold arc_center at 2 in OC. unfold arc_radius at 2 in OR. rewrite SH in OC, OR. rewrite Rabs_right in OR by (unfold rp; lra).
  assert (RO : exists r a ce y, pr_ro p = arc_curve r a ce y 0 0 true /\ pr_trf p = k_slice (ig_core g) z).
  { unfold ig_profile in EP. destruct (ig_tooth ts g z) as [tooth|]; cbn [bind] in EP; [|discriminate].
    destruct (profile_parts _ _ _ _ _ _ _ _ _ _ _ _ _ _ _ EP) as (f & t & p0 & _ & _ & EA & _ & _ & RO & TR).
    unfold assemble in EA. destruct (n_eval t 1) as [a|]; cbn [bind] in EA; [|discriminate]. destruct (n_eval t 0) as [b|]; cbn [bind] in EA; [|discriminate].
    destruct (n_eval _ 0) as [q0|]; cbn [bind] in EA; [|discriminate]. destruct (n_eval _ 1) as [q1|]; cbn [bind] in EA; [|discriminate].
    apply Ok_inj in EA. rewrite RO, <- EA. cbn [pr_ro]. do 4 eexists. split; [reflexivity|exact TR]. }
  destruct RO as (r & a & ce & y & E & TR). rewrite E in OC, OR. unfold arc_center, arc_radius, arc_curve in OC, OR. rewrite arc_new_shape in OC, OR.
  assert (CE : ce = ORIGIN) by (rewrite OC; reflexivity). clear OC. subst ce. subst r. exists (rp + - -2), a, y. split; [exact E|]. intros s. rewrite E, TR. change ORIGIN with (V 0 0 0).
  rewrite yaw_arc, apply_gear_transform_eq. cbn [k_slice g_orient g_center g_angle g_scale]. rewrite KG, KN, mapp_I, cos_0, sin_0.
  replace (1 - z * 2 * 0 / IZR n) with 1 by (field; lra).
  pose proof (sc1 (z * k_spiral (ig_core g))) as Q1. pose proof (sc1 (y + a * s)) as Q2. unfold rotz. revert Q1 Q2.
  generalize (sin (z * k_spiral (ig_core g))) (cos (z * k_spiral (ig_core g))) (sin (y + a * s)) (cos (y + a * s)).
  intros s1 c1 s2 c2 Q1 Q2. split.
  - unfold ring_radius. rewrite KO, KN. fold rp. apply axial_eq; [unfold rp; lra|]. generalize rp. unfold axis_sq. clear - Q1 Q2. intros w. vec_simpl. nsatz.
  - assert (EZ : forall v, vz v = z -> exists u, 0 <= u <= 1 /\ vz v = (1 - u) * k_z_first (ig_core g) + u * k_z_last (ig_core g)).
    { intros v ->. destruct (Req_dec (k_z_first (ig_core g)) (k_z_last (ig_core g))) as [EQ|NE].
      - exists 0. split; [lra|]. lra.
      - assert (LT : 0 < k_z_last (ig_core g) - k_z_first (ig_core g)) by lra.
        exists ((z - k_z_first (ig_core g)) / (k_z_last (ig_core g) - k_z_first (ig_core g))). split; [|field; lra].
        split; apply Rmult_le_reg_r with (k_z_last (ig_core g) - k_z_first (ig_core g)); try exact LT; unfold Rdiv; rewrite Rmult_assoc, Rinv_l by lra; lra. }
    apply EZ. clear. vec_simpl. ring.
Qed.

(** ** Examples: the twelve-tooth bevel gear of C111 *)
Lemma ex_depth : ex_hd < 2.
Proof.
  destruct ex_bevel_numbers as (w & s & x & W & S & CX & X & SG & CG & EX & WA & WD). pose proof PI_3. pose proof PI_4.
  unfold ex_hd. assert (SL : slant 6 (PI / 4) = 6 / s) by (unfold slant; rewrite SG; reflexivity). rewrite SL.
  set (e := s / 3). assert (E : 7 / 30 < e < 1 / 4) by (unfold e; lra).
  assert (D : PI / 4 - e < cone_angle_at (PI / 4) (PI / 6) (- ex_turn)).
  { unfold cone_angle_at. rewrite WD. unfold cone_cos. replace (- w * - w) with (w * w) by ring. rewrite CG, SG, sin_PI6.
    assert (WW : 0 < w * w < 1 / 64).
    { split; [apply Rmult_lt_0_compat; lra|]. assert (w * w < 1 / 8 * (1 / 8)) by (apply Rmult_le_0_lt_compat; lra). lra. }
    set (q := sqrt (1 - w * w)). assert (Q : 9 / 10 < q < 1) by (split; [apply sqrt_bound; lra|]; rewrite <- sqrt_1; apply sqrt_lt_1_alt; lra).
    assert (K : w / q < 5 / 36). { apply Rmult_lt_reg_r with q; [lra|]. replace (w / q * q) with w by (field; lra). lra. }
    assert (K0 : 0 < w / q) by (apply Rdiv_lt_0_compat; lra).
    replace (q * s - - w * (1 / 2 * s) / q) with (s * (q + w / q / 2)) by (field; lra).
    assert (BD : 0 < s * (q + w / q / 2) < 9 / 10).
    { split; [apply Rmult_lt_0_compat; lra|]. assert (s * (q + w / q / 2) < 3 / 4 * (11 / 10)) by (apply Rmult_le_0_lt_compat; lra). lra. }
    assert (CE : 1 - e * e / 2 <= cos e).
    { replace e with (2 * (e / 2)) at 3 by field. rewrite cos_2a_sin. pose proof (sin_lt_x (e / 2) ltac:(lra)) as U. assert (0 < sin (e / 2)) by (apply sin_gt_0; lra).
      assert (sin (e / 2) * sin (e / 2) <= e / 2 * (e / 2)) by (apply Rmult_le_compat; lra). lra. }
    assert (EE : e * e < 1 / 4 * (1 / 4)) by (apply Rmult_le_0_lt_compat; lra).
    assert (SE : e / 2 <= sin e).
    { pose proof (sin_concave (e / (PI / 2)) (PI / 2)) as KK. rewrite sin_PI2 in KK. replace (e / (PI / 2) * (PI / 2)) with e in KK by (field; lra).
      assert (B : e / 2 <= e / (PI / 2) < 1).
      { split; [apply Rmult_le_compat_l; [lra|]; apply Rinv_le_contravar; lra|].
        apply Rmult_lt_reg_r with (PI / 2); [lra|]. replace (e / (PI / 2) * (PI / 2)) with e by (field; lra). lra. }
      specialize (KK ltac:(lra) ltac:(lra)). lra. }
    assert (LE : s * (q + w / q / 2) < cos (PI / 4 - e)).
    { rewrite cos_minus, CG, SG. replace (s * cos e + s * sin e) with (s * (cos e + sin e)) by ring. apply Rmult_lt_compat_l; lra. }
    pose proof (acos_bound_lt (s * (q + w / q / 2)) ltac:(lra)). apply cos_decreasing_0; try lra. rewrite cos_acos by lra. exact LE. }
  apply Rlt_le_trans with (6 / s * e); [|unfold e; right; field; lra]. apply Rmult_lt_compat_l; [apply Rdiv_lt_0_compat; lra|lra].
Qed.
Lemma ex_bevel_everywhere : exists sv ts, forall z, bevel_at ex_bevel_gear 12 (PI / 4) z (- ex_turn) 1 (- ex_turn) ex_turn /\
  bevel_searched sv ts ex_bevel_gear 12 (PI / 4) z (- ex_turn) 1.
Proof.
  destruct (ex_bevel_searched 0) as (sv & ts & A & B). destruct ex_bevel_made as (_ & PA & _). exists sv, ts. intros z.
  unfold bevel_at, bevel_searched in *. rewrite PA in *. split; assumption.
Qed.
Lemma ex_slant : 8 < slant (12 / 2) (PI / 4).
Proof.
  destruct ex_bevel_numbers as (w & s & x & W & S & CX & X & SG & _). unfold slant. rewrite SG.
  apply Rmult_lt_reg_r with s; [lra|]. replace (12 / 2 / s * s) with 6 by (field; lra). lra.
Qed.
Lemma ex_apex_angle : 0 < outside_angle 12 (PI / 4) 2 < PI.
Proof. pose proof PI_RGT_0. pose proof (outside_external 12 (PI / 4) ltac:(lia) ltac:(lra)). lra. Qed.

Example C112_heights_example : forall p, trim_reference_profile ex_solver ex_flank ex_circles 0 0 (PI / 2) = Ok p -> forall s, 0 <= s <= 1 ->
  85 <= axis_sq (n_point (pr_chain p) s) <= 122.
Proof.
  intros p EP. apply (C112_heights ex_solver ex_flank ex_circles 0 0 (PI / 2) ex_flank p (fun q => 85 <= axis_sq q <= 122)).
  - constructor; [apply new_fresh|constructor].
  - apply ex_trim.
  - apply ex_flank_ok.
  - apply ex_not_opposite.
  - exact EP.
  - intros a b E _. rewrite E. auto.
  - intros s S. rewrite ex_flank_point. unfold axis_sq. cbn [vx vy]. nra.
Qed.
Example C112_sphere_example fs z : exists sv ts p, ig_profile sv fs ts ex_bevel_gear z = Ok p /\ on_section_sphere ex_bevel_gear z (n_point (pr_chain p) (1 / 2)).
Proof.
  destruct ex_bevel_everywhere as (sv & ts & E). destruct (E z) as (BA & SE). destruct ex_bevel_made as (BG & _ & _ & HO).
  destruct (C112_sphere sv fs ts _ _ _ z _ _ _ _ BG BA SE ltac:(rewrite HO; apply ex_apex_angle)) as (p & EP & A & _).
  exists sv, ts, p. split; [exact EP|]. apply A. lra.
Qed.
Lemma ex_sections fs : exists sv ts, forall z, exists p, ig_profile sv fs ts ex_bevel_gear z = Ok p.
Proof.
  destruct ex_bevel_everywhere as (sv & ts & E). exists sv, ts. intros z. destruct (E z) as (BA & SE). destruct ex_bevel_made as (BG & _ & _ & HO).
  destruct (C112_sphere sv fs ts _ _ _ z _ _ _ _ BG BA SE ltac:(rewrite HO; apply ex_apex_angle)) as (p & EP & _). exists p. exact EP.
Qed.
Example C112_blank_shape_example fs : exists sv ts p0 p1, ig_profile sv fs ts ex_bevel_gear 0 = Ok p0 /\ ig_profile sv fs ts ex_bevel_gear 3 = Ok p1 /\
  ref_solid (ig_core ex_bevel_gear) p0 p1 0 3 (V 0 0 0).
Proof.
  destruct (ex_sections fs) as (sv & ts & E). destruct (E 0) as (p0 & EP0). destruct (E 3) as (p1 & EP1). destruct ex_bevel_made as (BG & _ & EI & HO).
  exists sv, ts, p0, p1. split; [exact EP0|]. split; [exact EP1|]. pose proof PI_RGT_0. pose proof ex_slant as SL.
  destruct (C112_blank_shape sv fs ts _ _ _ 0 3 p0 p1 BG ltac:(lra) ltac:(rewrite EI; reflexivity) EP0 EP1 ltac:(lra) ltac:(lra)) as (B & SH).
  apply SH. clear SH. destruct ex_bevel_numbers as (w & s & x & W & SS & CX & X & SG & CG & _). set (S := slant (12 / 2) (PI / 4)) in *.
  assert (SV : S = 6 / s) by (unfold S, slant; rewrite SG; field; lra).
  assert (S9 : S < 9). { rewrite SV. apply Rmult_lt_reg_r with s; [lra|]. replace (6 / s * s) with 6 by (field; lra). lra. }
  assert (AP : 12 / 2 / tan (PI / 4) = 6) by (unfold tan; rewrite SG, CG; field; lra).
  assert (E6 : S * s = 6) by (rewrite SV; field; lra).
  set (b := PI / 4 - _) in *. assert (CB : s < cos b) by (rewrite <- CG; apply cos_decreasing_1; lra).
  rewrite AP. unfold blank. cbn [vz]. assert (S * s < S * cos b) by (apply Rmult_lt_compat_l; lra). split; [lra|]. left.
  replace (norm (vsub (V 0 0 0) (V 0 0 6))) with 6 by (symmetry; apply norm_eq; [lra|vec_simpl; ring]). lra.
Qed.
Example C112_blank_example fs : exists sv ts p0 p p1, ig_profile sv fs ts ex_bevel_gear 0 = Ok p0 /\ ig_profile sv fs ts ex_bevel_gear 1 = Ok p /\
  ig_profile sv fs ts ex_bevel_gear 2 = Ok p1 /\
  forall s, 0 <= s <= 1 -> ref_solid (ig_core ex_bevel_gear) p0 p1 0 2 (apply_gear_transform (n_point (pr_chain p) s) (pr_trf p)).
Proof.
  destruct ex_bevel_everywhere as (sv & ts & E). destruct ex_bevel_made as (BG & _ & EI & HO).
  assert (EX : forall z, exists p, ig_profile sv fs ts ex_bevel_gear z = Ok p).
  { intros z. destruct (E z) as (BA & SE). destruct (C112_sphere sv fs ts _ _ _ z _ _ _ _ BG BA SE ltac:(rewrite HO; apply ex_apex_angle)) as (p & EP & _). exists p. exact EP. }
  destruct (EX 0) as (p0 & EP0). destruct (EX 2) as (p1 & EP1). destruct (E 1) as (BA & SE). pose proof ex_slant as SL. pose proof ex_depth as DD.
  destruct (C112_blank sv fs ts _ _ _ 0 1 2 _ _ _ _ p0 p1 BG BA SE ltac:(rewrite EI; reflexivity) EP0 EP1 ltac:(lra) ltac:(lra) ltac:(lra)) as (p & EP & IN).
  { rewrite EI. cbn [ex_bevel_param ip_ded ip_shift]. rewrite Rmin_left; lra. }
  exists sv, ts, p0, p, p1. auto.
Qed.
Example C112_cut_example fs : exists sv ts p, ig_profile sv fs ts ex_bevel_gear (- / 50) = Ok p /\ forall s, 0 <= s <= 1 ->
  let '(c0, r0) := k_sphere_data (ig_core ex_bevel_gear) g_default 0 in let '(c1, r1) := k_sphere_data (ig_core ex_bevel_gear) g_default 2 in
  ~ shell c0 r0 c1 r1 (apply_gear_transform (n_point (pr_chain p) s) (k_slice (ig_core ex_bevel_gear) (- / 50))).
Proof.
  destruct ex_bevel_everywhere as (sv & ts & E). destruct ex_bevel_made as (BG & _ & EI & HO). destruct (E (- / 50)) as (BA & SE). pose proof ex_slant as SL.
  destruct (C112_cut sv fs ts _ _ _ 0 (- / 50) 2 _ _ _ _ BG BA SE ltac:(lra) ltac:(lra) ltac:(lra) ltac:(lra)) as (p & EP & A). exists sv, ts, p. split; [exact EP|exact A].
Qed.

(** A ring gear of eight teeth. *)
Definition ex_ring_param : iparam := mkIP 8 3 0 0 ORIGIN 0 2 false 0 0 0 0 (2 * sqrt 6 - 4) 1 (PI / 6) 0 0 true 0.
Definition ex_ring_gear : igear := ig_new ex_ring_param.
Example C112_ring_example fs : exists sv ts p, ig_profile sv fs ts ex_ring_gear 1 = Ok p /\
  forall s, outside_ring (ig_core ex_ring_gear) (apply_gear_transform (c_eval (pr_ro p) s) (pr_trf p)) /\ ring_radius (ig_core ex_ring_gear) = 6.
Proof.
  destruct ex_ts as (ts & S & T & E). pose proof PI_RGT_0. pose proof ex_spur as SP.
  assert (C : cos (PI / 6) = sqrt 3 / 2) by apply cos_PI6.
  assert (S3 : 17 / 10 < sqrt 3) by (apply sqrt_bound; lra). assert (S3' : sqrt 3 < 1733 / 1000) by (apply sqrt_bound_up; lra).
  assert (S6 : 2 < sqrt 6) by (apply sqrt_bound; lra). assert (S5 : 2 < sqrt 5) by (apply sqrt_bound; lra).
  assert (S6' : sqrt 6 < 3) by (apply sqrt_bound_up; lra).
  destruct (C105_solvable ts 4 (PI / 6) (PI / 16) (2 * sqrt 6 - 4) 1 (-2) 4 (PI / 4) SP S T) as (sv & TF & RF); try (rewrite ?C; lra).
  { rewrite E. assert (17 / 10 * 2 <= sqrt 3 * sqrt 5) by (apply Rmult_le_compat; lra). lra. }
  assert (NN : ip_normalise ex_ring_param = ex_ring_param).
  { unfold ip_normalise, ex_ring_param. cbn [ip_teeth]. destruct (Rlt_dec 8 0); [lra|reflexivity]. }
  assert (EI : ig_in ex_ring_gear = ex_ring_param) by (unfold ex_ring_gear, ig_new; rewrite NN; reflexivity).
  assert (CY : cylindrical ex_ring_gear 8) by (apply (ig_new_cylindrical ex_ring_param 8); cbn; try lra; try lia).
  assert (PL : plain_spur ex_ring_gear 8).
  { split; [exact CY|unfold ex_ring_gear, ig_new; rewrite NN; cbn; apply rotation_I|rewrite EI; reflexivity|rewrite EI; reflexivity|rewrite EI; reflexivity|rewrite EI; reflexivity]. }
  assert (PA : forall z, ig_pia ex_ring_gear z = PI / 16).
  { intros z. unfold ig_pia, crowning. rewrite EI. unfold ex_ring_gear, ig_new. rewrite NN.
    cbn [ex_ring_param ig_core calc_params k_rp k_tooth_angle ip_height ip_crown ip_teeth ip_shift ip_alpha ip_backlash]. unfold Rdiv. field. }
  assert (HO : k_ho (ig_core ex_ring_gear) = -2) by (unfold ex_ring_gear, ig_new; rewrite NN; reflexivity).
  destruct (C105_gear sv fs ts ex_ring_gear 8 1 PL) as (p & EP & _).
  { unfold spur_at. rewrite EI, PA. cbn [ex_ring_param ip_alpha ip_add ip_ded ip_shift].
    replace (8 / 2) with 4 by field. replace (2 * PI / 8) with (PI / 4) by field. rewrite Rplus_0_r, Rminus_0_r. exact SP. }
  { unfold searched. rewrite EI, PA, HO. cbn [ex_ring_param ip_alpha ip_add ip_ded ip_shift].
    replace (8 / 2) with 4 by field. replace (2 * PI / 8) with (PI / 4) by field. rewrite Rplus_0_r, Rminus_0_r. auto. }
  destruct (C112_ring sv fs ts ex_ring_gear 8 1 p CY ltac:(rewrite EI; reflexivity) EP) as (r & a & y & _ & A).
  { unfold ex_ring_gear, ig_new. rewrite NN. cbn. lra. }
  exists sv, ts, p. split; [exact EP|]. intros s. split; [apply A|]. unfold ring_radius. rewrite HO. unfold ex_ring_gear, ig_new. rewrite NN. cbn. unfold tp_make.
  destruct (Rlt_dec 8 0); [lra|]. cbn. lra.
Qed.

(** A gear of a thousand teeth whose root lies deeper than two modules. *)
Definition ex_deep_turn : R := 13 / 1250.
Definition ex_deep_hd : R := slant 500 (PI / 4) * (PI / 4 - cone_angle_at (PI / 4) (PI / 6) (- ex_deep_turn)).
Lemma ex_deep : bevel_tooth 500 (PI / 4) (PI / 6) (/ 10000) 0 ex_deep_hd (2 * PI / 1000) (- ex_deep_turn) 1 (- ex_deep_turn) 0 /\ 2 < ex_deep_hd /\
  2 < slant 500 (PI / 4).
Proof.
  destruct ex_bevel_numbers as (_ & s & _ & _ & S & _ & _ & SG & CG & _). pose proof PI_3. pose proof PI_4.
  assert (S3 : 173 / 100 < sqrt 3) by (apply sqrt_bound; lra). assert (S3' : sqrt 3 < 2) by (apply sqrt_bound_up; lra).
  assert (C6 : cos (PI / 6) = sqrt 3 / 2) by apply cos_PI6. assert (S6 : sin (PI / 6) = 1 / 2) by apply sin_PI6.
  set (x := ex_deep_turn * s). assert (X : 0 < x < 1 / 100) by (unfold x, ex_deep_turn; lra).
  assert (XX : 0 < x * x < 1 / 10000). { split; [apply Rmult_lt_0_compat; lra|]. assert (x * x < 1 / 100 * (1 / 100)) by (apply Rmult_le_0_lt_compat; lra). lra. }
  assert (CE : forall e, 0 < e < 1 / 10 -> 1 - e * e / 2 <= cos e).
  { intros e E. replace e with (2 * (e / 2)) at 3 by field. rewrite cos_2a_sin. pose proof (sin_lt_x (e / 2) ltac:(lra)) as U. assert (0 < sin (e / 2)) by (apply sin_gt_0; lra).
    assert (sin (e / 2) * sin (e / 2) <= e / 2 * (e / 2)) by (apply Rmult_le_compat; lra). lra. }
  assert (CX : 999 / 1000 < cos x <= 1). { pose proof (CE x ltac:(lra)). pose proof (COS_bound x). lra. }
  assert (SX : 999 / 1000 * x < sin x < x).
  { split; [|apply sin_lt_x; lra]. pose proof (sin_lower x) as K. rewrite !Rabs_right in K by (try (apply Rle_ge; left; apply sin_gt_0); lra).
    apply Rlt_le_trans with (2 := K). rewrite Rmult_comm. apply Rmult_lt_compat_l; lra. }
  set (w := sqrt 3 / 2 * sin x).
  assert (W : 864 / 1000 * x < w < x).
  { unfold w. split.
    - assert (173 / 200 * (999 / 1000 * x) < sqrt 3 / 2 * sin x) by (apply Rmult_le_0_lt_compat; lra). lra.
    - assert (sqrt 3 / 2 * sin x < 1 * x) by (apply Rmult_le_0_lt_compat; lra). lra. }
  assert (WD : reach_sin (PI / 4) (PI / 6) (- ex_deep_turn) = - w).
  { unfold reach_sin, w. rewrite C6, SG. replace (- ex_deep_turn * s) with (- x) by (unfold x; ring). rewrite sin_neg. ring. }
  assert (WW : 0 < w * w < 1 / 100 * x). { split; [apply Rmult_lt_0_compat; lra|]. apply Rmult_le_0_lt_compat; lra. }
  set (q := sqrt (1 - w * w)).
  assert (QQ : q * q = 1 - w * w) by (apply sqrt_sqrt; lra).
  assert (Q : 9 / 10 < q < 1). { split; [apply sqrt_bound; lra|]. rewrite <- sqrt_1. apply sqrt_lt_1_alt. lra. }
  assert (Q1 : 1 - w * w < q). { rewrite <- QQ. assert (q * q < q * 1) by (apply Rmult_lt_compat_l; lra). lra. }
  assert (K0 : w < w / q < 1 / 50).
  { split; (apply Rmult_lt_reg_r with q; [lra|]); replace (w / q * q) with w by (field; lra); [|lra].
    assert (w * q < w * 1) by (apply Rmult_lt_compat_l; lra). lra. }
  assert (CD : cone_cos (PI / 4) (PI / 6) (reach_sin (PI / 4) (PI / 6) (- ex_deep_turn)) = s * (q + w / q / 2)).
  { rewrite WD. unfold cone_cos. replace (- w * - w) with (w * w) by ring. fold q. rewrite CG, S6, SG. field. lra. }
  assert (BD : 0 < s * (q + w / q / 2) < 9 / 10).
  { split; [apply Rmult_lt_0_compat; lra|]. assert (s * (q + w / q / 2) < 3 / 4 * (9 / 8)) by (apply Rmult_le_0_lt_compat; lra). lra. }
  assert (SL : slant 500 (PI / 4) = 500 / s) by (unfold slant; rewrite SG; reflexivity).
  assert (SLP : 500 < slant 500 (PI / 4)).
  { rewrite SL. apply Rmult_lt_reg_r with s; [lra|]. replace (500 / s * s) with 500 by (field; lra). lra. }
  assert (AD : PI / 4 - ex_deep_hd / slant 500 (PI / 4) = acos (s * (q + w / q / 2))).
  { rewrite <- CD. change (acos _) with (cone_angle_at (PI / 4) (PI / 6) (- ex_deep_turn)). unfold ex_deep_hd. field. lra. }
  (* deeper than two modules *)
  set (e := s / 250). assert (E : 0 < e < 1 / 250) by (unfold e; lra).
  assert (HD : 2 < ex_deep_hd).
  { assert (D : acos (s * (q + w / q / 2)) < PI / 4 - e).
    { pose proof (acos_bound_lt (s * (q + w / q / 2)) ltac:(lra)). apply cos_decreasing_0; try lra. rewrite cos_acos by lra.
      rewrite cos_minus, CG, SG. replace (s * cos e + s * sin e) with (s * (cos e + sin e)) by ring. apply Rmult_lt_compat_l; [lra|].
      pose proof (COS_bound e). pose proof (sin_lt_x e ltac:(lra)). assert (x = 26 / 10 * e) by (unfold x, e, ex_deep_turn; field). lra. }
    rewrite <- AD in D. assert (Z : e < ex_deep_hd / slant 500 (PI / 4)) by lra.
    apply Rle_lt_trans with (slant 500 (PI / 4) * e); [rewrite SL; unfold e; right; field; lra|].
    replace ex_deep_hd with (slant 500 (PI / 4) * (ex_deep_hd / slant 500 (PI / 4))) by (field; lra). apply Rmult_lt_compat_l; lra. }
  (* the space between the teeth *)
  assert (YD : side_y (PI / 4) (PI / 6) (- ex_deep_turn) = 3 / 4 * (sin x * cos x)).
  { unfold side_y. rewrite WD, C6, SG. replace (- ex_deep_turn * s) with (- x) by (unfold x; ring). rewrite cos_neg. unfold w. pose proof (sqrt_sqrt 3 ltac:(lra)).
    replace (- (- (sqrt 3 / 2 * sin x) * (sqrt 3 / 2 * cos x))) with (sqrt 3 * sqrt 3 * (sin x * cos x / 4)) by field. rewrite H1. field. }
  assert (XD : side_x (PI / 4) (PI / 6) (- w) = s * (1 - w * w - w / 2)) by (unfold side_x; rewrite SG, CG, S6; field).
  assert (XB : 0 < s * (1 - w * w - w / 2) < s).
  { split; [apply Rmult_lt_0_compat; lra|]. assert (s * (1 - w * w - w / 2) < s * 1) by (apply Rmult_lt_compat_l; lra). lra. }
  assert (RT : 745 / 1000 * ex_deep_turn < 3 / 4 * (sin x * cos x) / (s * (1 - w * w - w / 2))).
  { apply Rmult_lt_reg_r with (s * (1 - w * w - w / 2)); [lra|].
    replace (3 / 4 * (sin x * cos x) / (s * (1 - w * w - w / 2)) * (s * (1 - w * w - w / 2))) with (3 / 4 * (sin x * cos x)) by (field; lra).
    assert (Z1 : 999 / 1000 * x * (999 / 1000) < sin x * cos x) by (apply Rmult_le_0_lt_compat; lra).
    assert (Z2 : 745 / 1000 * ex_deep_turn * (s * (1 - w * w - w / 2)) < 745 / 1000 * ex_deep_turn * s) by (apply Rmult_lt_compat_l; [unfold ex_deep_turn|]; lra).
    replace (745 / 1000 * ex_deep_turn * s) with (745 / 1000 * x) in Z2 by (unfold x; ring). lra. }
  set (u := 74 / 100 * ex_deep_turn). assert (U : 0 < u < 1 / 100) by (unfold u, ex_deep_turn; lra).
  assert (AT : u < atan (3 / 4 * (sin x * cos x) / (s * (1 - w * w - w / 2)))).
  { rewrite <- (atan_tan u) by lra. apply atan_increasing. apply Rlt_trans with (2 := RT). unfold tan.
    assert (UU : u * u < 1 / 100 * (1 / 100)) by (apply Rmult_le_0_lt_compat; lra). pose proof (CE u ltac:(lra)) as CU. pose proof (sin_lt_x u ltac:(lra)).
    apply Rmult_lt_reg_r with (cos u); [lra|]. replace (sin u / cos u * cos u) with (sin u) by (field; lra).
    assert (Z : 745 / 1000 * ex_deep_turn * (999 / 1000) < 745 / 1000 * ex_deep_turn * cos u) by (apply Rmult_lt_compat_l; [unfold ex_deep_turn|]; lra).
    unfold u in *. unfold ex_deep_turn in *. lra. }
  split; [|split; [exact HD|lra]].
  split; [lra| |lra| | | |unfold ex_deep_turn; lra|unfold ex_deep_turn; lra| | | |].
  - split; [lra|lra| | |].
    + rewrite SG. replace (- ex_deep_turn * s) with (- x) by (unfold x; ring). lra.
    + rewrite SG. lra.
    + rewrite WD, CG, S6, SG. rewrite Ropp_involutive. apply Rmult_lt_compat_r; lra.
  - rewrite AD. apply acos_bound_lt. lra.
  - lra.
  - unfold Rdiv at 2. rewrite Rmult_0_l. lra.
  - rewrite AD, CD, cos_acos by lra. reflexivity.
  - unfold reach_sin. rewrite Rmult_0_l, sin_0, Rmult_0_r. unfold cone_cos. replace (1 - 0 * 0) with 1 by ring. rewrite sqrt_1. unfold Rdiv. rewrite !Rmult_0_l, Rplus_0_r. ring.
  - unfold bevel_angle. rewrite YD, WD, XD. unfold u, ex_deep_turn in *. lra.
  - unfold bevel_angle, side_y, reach_sin. rewrite Rmult_0_l, sin_0, Rmult_0_r, Rmult_0_l, Ropp_0. unfold Rdiv. rewrite Rmult_0_l, atan_0. lra.
Qed.
Definition ex_deep_param : iparam := mkIP 1000 1 0 (2 * (PI / 4)) ORIGIN 0 3 false 0 0 0 0 0 ex_deep_hd (PI / 6) (500 * (PI / 2000 - / 10000)) 0 false 0.
Definition ex_deep_gear : igear := ig_new ex_deep_param.
Lemma ex_deep_made : bevel_gear ex_deep_gear 1000 (PI / 4) /\ (forall z, ig_pia ex_deep_gear z = / 10000) /\ ig_in ex_deep_gear = ex_deep_param /\
  k_ho (ig_core ex_deep_gear) = 2.
Proof.
  assert (NN : ip_normalise ex_deep_param = ex_deep_param).
  { unfold ip_normalise, ex_deep_param. cbn [ip_teeth]. destruct (Rlt_dec 1000 0); [lra|reflexivity]. }
  assert (EI : ig_in ex_deep_gear = ex_deep_param) by (unfold ex_deep_gear, ig_new; rewrite NN; reflexivity).
  assert (EC : ig_core ex_deep_gear = calc_params ex_deep_param) by (unfold ex_deep_gear, ig_new; rewrite NN; reflexivity).
  split; [|split; [|split; [exact EI|rewrite EC; reflexivity]]].
  - split; rewrite ?EI, ?EC; try reflexivity; try lia.
    + cbn. lra.
    + cbn. apply rotation_I.
  - intros z. unfold ig_pia, crowning. rewrite EI, EC. cbn [ex_deep_param calc_params k_rp k_tooth_angle ip_height ip_crown ip_teeth ip_shift ip_alpha ip_backlash].
    unfold Rdiv. field.
Qed.
Example C112_deep_root_example fs : exists sv ts p0 p1, ig_profile sv fs ts ex_deep_gear 0 = Ok p0 /\ ig_profile sv fs ts ex_deep_gear 1 = Ok p1 /\
  ~ ref_solid (ig_core ex_deep_gear) p0 p1 0 1 (apply_gear_transform (n_point (pr_chain p0) 1) (pr_trf p0)).
Proof.
  destruct ex_deep as (BT & HD & SL). destruct ex_deep_made as (BG & PA & EI & HO). assert (T0 : 0 < ex_deep_turn < 1) by (unfold ex_deep_turn; lra).
  destruct (C111_solvable _ _ _ _ _ _ 2 _ _ _ _ _ None (- ex_deep_turn) 1 BT) as (sv & ts & A & B); try lra. cbv zeta in B. destruct B as (_ & _ & B & C).
  assert (E : forall z, bevel_at ex_deep_gear 1000 (PI / 4) z (- ex_deep_turn) 1 (- ex_deep_turn) 0 /\ bevel_searched sv ts ex_deep_gear 1000 (PI / 4) z (- ex_deep_turn) 1).
  { intros z. unfold bevel_at, bevel_searched. rewrite EI, HO, PA. cbn [ex_deep_param ip_alpha ip_add ip_ded ip_shift]. cbv zeta.
    replace (1000 / 2) with 500 by field. rewrite Rplus_0_r, Rminus_0_r. auto. }
  destruct (E 1) as (BA1 & SE1). destruct (E 0) as (BA & SE). pose proof PI_RGT_0.
  destruct (C112_sphere sv fs ts _ _ _ 1 _ _ _ _ BG BA1 SE1 ltac:(rewrite HO; pose proof (outside_external 1000 (PI / 4) ltac:(lia) ltac:(lra)); lra)) as (p1 & EP1 & _).
  assert (SL' : 1 < slant (1000 / 2) (PI / 4)) by (replace (1000 / 2) with 500 by field; lra).
  destruct (C112_deep_root sv fs ts _ _ _ 0 1 _ _ _ _ p1 BG BA SE ltac:(rewrite EI; reflexivity) EP1 ltac:(lra) SL') as (p0 & EP0 & N).
  { rewrite EI. cbn [ex_deep_param ip_ded ip_shift]. rewrite Rmin_left; lra. }
  exists sv, ts, p0, p1. auto.
Qed.
