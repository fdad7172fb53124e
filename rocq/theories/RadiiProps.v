(** Properties C100 (reported addendum and dedendum radius), C101 (reported cone angles), C102 (face and centre
    locations), C103 (centre of the reference circles), C104 (base circle), and the gear form of C105. *)
From Coq Require Import Nsatz Reals List ZArith Lra Lia Psatz Bool.
From Verif Require Import Num Vec Transform TransformProps Params ParamsProps Coords CoordsProps Gen GenProps Interp Curve CurveLem
  CurveProps ArcLem ArcProps Chain ChainLem ChainProps GearLem GearMath MeshProps MeshDistProps Tooth Wrapper Info RefLines RefLinesProps
  Profile ProfileLem ProfileProps Build BuildProps Fillet FilletProps FlankProps ReduceProps Teeth RackConjProps UndercutProps RisingLem
  Report ReportProps SpurProps.
Import ListNotations.
Open Scope R_scope.

(** ** C100 *)
(** The flank [t] of the gear's profile at the height [z], and the nominal circles it was trimmed with. *)
Record flank_of (sv : solver) (fs : fsolver) (ts : tsolver) (g : igear) (z : R) (rc : ref_circles) (t : node) : Prop := {
  fl_ok : flank_ok t;
  fl_ends : not_opposite t (2 * PI / ip_teeth (ig_in g));
  fl_made : exists tooth f, let k := ig_core g in let p := ig_in g in
    ig_tooth ts g z = Ok tooth /\
    rc = reduced_circles fs tooth (generate_reference_circles (k_rp k) (k_ha k) (k_hd k) (k_ho k) (k_cone k) (k_rp k)) (ip_tip_trunc p) (k_cone k) (k_rp k) /\
    filleted_flank fs tooth rc (ip_tip_fillet p) (ip_root_fillet p) (2 * PI / ip_teeth p) = Ok f /\
    List.Forall fresh (leaves f) /\
    trim_flank sv f rc (ip_tip_fillet p) (ip_root_fillet p) (2 * PI / ip_teeth p) = Ok t }.

Lemma axis_dist_pos p a : vx p * cos a - vy p * sin a <> 0 -> 0 < axis_dist p.
Proof.
  intros H. unfold axis_dist. apply sqrt_lt_R0. pose proof (Rle_0_sqr (vx p)). pose proof (Rle_0_sqr (vy p)). unfold Rsqr in *.
  destruct (Req_dec (vx p) 0) as [X|X].
  - destruct (Req_dec (vy p) 0) as [Y|Y]; [exfalso; apply H; rewrite X, Y; ring|].
    assert (0 < vy p * vy p) by (apply Rsqr_pos_lt, Y). lra.
  - assert (0 < vx p * vx p) by (apply Rsqr_pos_lt, X). lra.
Qed.

(** The report at any height: the distance of the flank's end from the axis if the tooth has a land there (the gap has a
    bottom), the radius of the nominal circle otherwise; times the gear's scale and the slice's. *)
Theorem C100_radii sv fs ts g z rc t : flank_of sv fs ts g z rc t -> sound (ig_core g) ->
  0 < g_scale (k_slice (ig_core g) z) -> 0 < arc_radius (rc_a rc) -> 0 < arc_radius (rc_d rc) ->
  exists c, ig_circles sv fs ts g z = Ok c /\
    let k := g_scale (k_trf (ig_core g)) * g_scale (k_slice (ig_core g) z) in
    arc_radius (rc_a c) = k * (if Rlt_dec (/ 10000000000) (tip_gap t) then axis_dist (n_point t 1) else arc_radius (rc_a rc)) /\
    arc_radius (rc_d c) = k * (if Rlt_dec (/ 10000000000) (root_gap t (2 * PI / ip_teeth (ig_in g)))
                               then axis_dist (n_point t 0) else arc_radius (rc_d rc)).
Proof.
  intros [FO NO (tooth & f & ET & ER & EF & FR & TR)] SO SS RA RD. cbv zeta in *.
  destruct (C91_profile sv fs tooth (k_rp (ig_core g)) (k_ha (ig_core g)) (k_hd (ig_core g)) (k_ho (ig_core g)) (k_cone (ig_core g)) (k_rp (ig_core g))
    (ip_tip_fillet (ig_in g)) (ip_root_fillet (ig_in g)) (ip_tip_trunc (ig_in g)) (2 * PI / ip_teeth (ig_in g)) (k_slice (ig_core g) z) f t)
    as (p & a & b & EP & _).
  { rewrite <- ER. exact EF. } { exact FR. } { rewrite <- ER. exact TR. } { exact FO. } { exact NO. }
  assert (EI : ig_profile sv fs ts g z = Ok p) by (unfold ig_profile; rewrite ET; exact EP).
  destruct (profile_parts _ _ _ _ _ _ _ _ _ _ _ _ _ _ _ EP) as (f' & t' & p0 & E3 & E4 & E5 & E6 & E7 & _ & ETR).
  rewrite <- ER in E3, E4, E5. rewrite EF in E3. apply Ok_inj in E3. subst f'. rewrite TR in E4. apply Ok_inj in E4. subst t'.
  destruct (assemble_lands t rc _ p0 FO (trim_leaves_fresh _ _ _ _ _ _ _ FR TR) E5) as (A1 & A2 & A3 & A4).
  destruct NO as [N1 N0].
  assert (D1 : 0 < axis_dist (n_point t 1)) by (apply (axis_dist_pos _ 0); rewrite cos_0, sin_0; lra).
  assert (D0 : 0 < axis_dist (n_point t 0)) by (eapply axis_dist_pos, N0).
  rewrite <- E6 in A1, A2. rewrite <- E7 in A3, A4.
  unfold ig_circles. rewrite EI. cbn [bind]. eexists. split; [reflexivity|]. unfold radii_data. cbn [rc_a rc_d]. rewrite ETR, <- A1, <- A3.
  assert (P1 : 0 < arc_radius (pr_ra p)) by (rewrite A1; clear - D1 RA; destruct (Rlt_dec _ _); assumption).
  assert (P0 : 0 < arc_radius (pr_rd p)) by (rewrite A3; clear - D0 RD; destruct (Rlt_dec _ _); assumption).
  split; apply (placed_moved (ig_core g) z); assumption.
Qed.

(** A spur gear without undercut, fillets and tip reduction. *)
Record plain_spur (g : igear) (n : Z) : Prop := {
  ps_cyl : cylindrical g n;
  ps_rot : rotation (g_orient (k_trf (ig_core g)));
  ps_under : ip_undercut (ig_in g) = false;
  ps_tip : ip_tip_fillet (ig_in g) = 0; ps_root : ip_root_fillet (ig_in g) = 0; ps_trunc : ip_tip_trunc (ig_in g) = 0 }.
Definition spur_at (g : igear) (n : Z) (z : R) : Prop := let p := ig_in g in
  spur (IZR n / 2) (ip_alpha p) (ig_pia g z) (ip_add p + ip_shift p) (ip_ded p - ip_shift p) (2 * PI / IZR n).
(** The searches at the height [z] find the crossings. *)
Definition searched (sv : solver) (ts : tsolver) (g : igear) (n : Z) (z : R) : Prop := let p := ig_in g in
  let rp := IZR n / 2 in let pitch := 2 * PI / IZR n in
  let tooth := plane_involute_tooth ts rp (ip_alpha p) (ig_pia g z) in
  let rc := generate_reference_circles rp (ip_add p + ip_shift p) (ip_ded p - ip_shift p) (k_ho (ig_core g)) 0 rp in
  solved ts rp (ip_alpha p) /\ top_found ts rp (ip_alpha p) (ig_pia g z) /\
  tip_found sv tooth (rc_a rc) pitch /\
  (forall n1, trim_tip sv tooth (rc_a rc) 0 pitch = Ok n1 -> root_found sv n1 (rc_d rc) pitch).

Lemma spur_core g n z : plain_spur g n -> let k := ig_core g in let p := ig_in g in
  k_rp k = IZR n / 2 /\ k_alpha k = ip_alpha p /\ k_ha k = ip_add p + ip_shift p /\ k_hd k = ip_ded p - ip_shift p /\
  k_cone k = 0 /\ g_scale (k_slice k z) = 1 /\ g_scale (k_trf k) = ip_module p /\ ip_teeth p = IZR n /\ sound k /\ num_teeth (k_tooth k) = IZR n.
Proof.
  intros [CY RO _ _ _ _]. cbv zeta. assert (N : 0 < IZR n) by (apply IZR_lt, (cy_n _ _ CY)).
  assert (EC := cy_core _ _ CY). assert (SO : sound (ig_core g)) by (split; [rewrite (cy_scale _ _ CY); apply (cy_module _ _ CY)|exact RO]).
  pose proof (cy_scale _ _ CY) as SC. revert SO SC. rewrite EC. intros SO SC.
  cbn [with_trf calc_params k_rp k_alpha k_ha k_hd k_cone k_tooth k_slice g_scale k_gamma k_trf] in *.
  rewrite (cy_teeth _ _ CY), (cy_cone _ _ CY). unfold tp_make. destruct (Rlt_dec (IZR n) 0); [lra|]. cbn [num_teeth].
  repeat split; try exact SC; try (apply SO). replace (0 / 2) with 0 by field. rewrite sin_0. field. lra.
Qed.

Lemma spur_tooth ts g n z : plain_spur g n -> ig_tooth ts g z = Ok (plane_involute_tooth ts (IZR n / 2) (ip_alpha (ig_in g)) (ig_pia g z)).
Proof.
  intros H. destruct (spur_core g n z H) as (E1 & E2 & _ & _ & E5 & _). unfold ig_tooth. rewrite (ps_under _ _ H), E5.
  destruct (Req_EM_T 0 0); [|contradiction]. unfold involute_tooth_curve. destruct (Req_EM_T 0 0); [|contradiction].
  rewrite E1, E2. reflexivity.
Qed.
Lemma spur_flank sv fs ts g n z t : plain_spur g n ->
  let p := ig_in g in let rp := IZR n / 2 in let tooth := plane_involute_tooth ts rp (ip_alpha p) (ig_pia g z) in
  let rc := generate_reference_circles rp (ip_add p + ip_shift p) (ip_ded p - ip_shift p) (k_ho (ig_core g)) 0 rp in
  List.Forall fresh (leaves tooth) -> trim_flank sv tooth rc 0 0 (2 * PI / IZR n) = Ok t -> flank_ok t -> not_opposite t (2 * PI / IZR n) ->
  flank_of sv fs ts g z rc t.
Proof.
  intros H p rp tooth rc FR TR FO NO. destruct (spur_core g n z H) as (E1 & E2 & E3 & E4 & E5 & _ & _ & E8 & _). split.
  - exact FO.
  - rewrite E8. exact NO.
  - exists tooth, tooth. cbv zeta. rewrite E1, E3, E4, E5, E8, (ps_tip _ _ H), (ps_root _ _ H), (ps_trunc _ _ H).
    split; [apply spur_tooth, H|]. split; [unfold reduced_circles; destruct (Rlt_dec 0 0); [lra|reflexivity]|].
    split; [unfold filleted_flank; destruct (Rlt_dec 0 0); [lra|reflexivity]|]. split; [exact FR|exact TR].
Qed.
Lemma flank_dist rp alpha pia r : 0 < r -> axis_dist (flank_point rp alpha pia r) = r.
Proof.
  intros R. unfold axis_dist. change (sqrt (rad2 (flank_point rp alpha pia r)) = r). unfold flank_point. rewrite rad2_circle.
  apply sqrt_square. lra.
Qed.

(** A spur gear whose teeth have a land reports the textbook radii: module times (half the tooth number plus addendum
    plus shift) and module times (half the tooth number minus dedendum plus shift). *)
Theorem C100_spur sv fs ts g n : plain_spur g n ->
  spur_at g n (k_z_first (ig_core g)) -> searched sv ts g n (k_z_first (ig_core g)) ->
  let p := ig_in g in
  ig_addendum_radius sv fs ts g = Ok (ip_module p * (IZR n / 2 + ip_add p + ip_shift p)) /\
  ig_dedendum_radius sv fs ts g = Ok (ip_module p * (IZR n / 2 - ip_ded p + ip_shift p)).
Proof.
  intros H SP (S & T & TF & RF) p. unfold spur_at in SP. set (z := k_z_first (ig_core g)) in *.
  destruct (spur_core g n z H) as (E1 & E2 & E3 & E4 & E5 & E6 & E7 & E8 & SO & _).
  destruct (C105_flank sv ts _ _ _ _ _ _ _ _ SP S T TF RF) as (t & TR & FO & NO & FR & P0 & P1 & _).
  pose proof (spur_flank sv fs ts g n z t H FR TR FO NO) as FL. destruct SP as [P A I PI0 RD HH BA GAP LAND]. fold p in P, A, I, PI0, RD, HH, BA, GAP, LAND.
  destruct (C51_cylindrical (IZR n / 2) (ip_add p + ip_shift p) (ip_ded p - ip_shift p) (k_ho (ig_core g)) (IZR n / 2) P ltac:(lra) ltac:(lra))
    as (_ & (_ & m1 & CA) & (_ & m2 & CD) & _).
  assert (RA : arc_radius (rc_a (generate_reference_circles (IZR n / 2) (ip_add p + ip_shift p) (ip_ded p - ip_shift p) (k_ho (ig_core g)) 0 (IZR n / 2)))
    = IZR n / 2 + (ip_add p + ip_shift p)) by (unfold arc_radius; rewrite CA; apply Rabs_right; lra).
  assert (RD' : arc_radius (rc_d (generate_reference_circles (IZR n / 2) (ip_add p + ip_shift p) (ip_ded p - ip_shift p) (k_ho (ig_core g)) 0 (IZR n / 2)))
    = IZR n / 2 - (ip_ded p - ip_shift p)) by (unfold arc_radius; rewrite CD; apply Rabs_right; lra).
  destruct (C100_radii sv fs ts g z _ t FL SO) as (c & EC & CR & DR); try (rewrite E6; lra).
  { fold p. rewrite RA. lra. } { fold p. rewrite RD'. lra. }
  fold p in CR, DR. rewrite RA, P1, E6, E7 in CR. rewrite RD', P0, E6, E7 in DR.
  unfold ig_addendum_radius, ig_dedendum_radius. fold z. rewrite EC. cbn [bind].
  assert (CR' : arc_radius (rc_a c) = ip_module p * 1 * (IZR n / 2 + (ip_add p + ip_shift p))).
  { rewrite CR. clear CR DR. f_equal. destruct (Rlt_dec _ _); [|reflexivity]. apply flank_dist. lra. }
  assert (DR' : arc_radius (rc_d c) = ip_module p * 1 * (IZR n / 2 - (ip_ded p - ip_shift p))).
  { rewrite DR. clear CR CR' DR. f_equal. destruct (Rlt_dec _ _); [|reflexivity]. apply flank_dist. lra. }
  rewrite CR', DR'. split; f_equal; ring.
Qed.

(** A tooth that comes to a point below the tip circle: the search for the tip circle fails, the flank runs to the point;
    the radius reported is still the nominal one, beyond every point of the tooth. *)
Theorem C100_pointed sv fs ts g n rt : plain_spur g n -> let z := k_z_first (ig_core g) in
  let p := ig_in g in let rp := IZR n / 2 in let pitch := 2 * PI / IZR n in
  let tooth := plane_involute_tooth ts rp (ip_alpha p) (ig_pia g z) in
  let rc := generate_reference_circles rp (ip_add p + ip_shift p) (ip_ded p - ip_shift p) (k_ho (ig_core g)) 0 rp in
  0 < ip_alpha p -> inv (ip_alpha p) <= PI -> pitch < PI -> 0 < rp - (ip_ded p - ip_shift p) ->
  rp - (ip_ded p - ip_shift p) < rt < rp + (ip_add p + ip_shift p) -> rp - (ip_ded p - ip_shift p) <> rp * cos (ip_alpha p) ->
  - (pitch / 2) < flank_angle rp (ip_alpha p) (ig_pia g z) (rp - (ip_ded p - ip_shift p)) ->
  flank_angle rp (ip_alpha p) (ig_pia g z) rt = 0 ->
  solved ts rp (ip_alpha p) -> top_found ts rp (ip_alpha p) (ig_pia g z) -> n_point tooth 1 = V rt 0 0 ->
  (forall m, let r := sv_meet sv m tooth (rc_a rc) (9 / 10) (- pitch / 8 / c_length (rc_a rc)) in
     fst (fst r) = false /\ / 100000 <= norm (vsub (n_point tooth (snd (fst r))) (c_eval (rc_a rc) (snd r)))) ->
  sv_plane sv tooth UP 1 = 1 ->
  (forall n1, trim_tip sv tooth (rc_a rc) 0 pitch = Ok n1 -> root_found sv n1 (rc_d rc) pitch) ->
  ig_addendum_radius sv fs ts g = Ok (ip_module p * (rp + ip_add p + ip_shift p)) /\
  exists q, ig_profile sv fs ts g z = Ok q /\ forall s, 0 <= s <= 1 -> norm (n_point (pr_tooth q) s) <= rt.
Proof.
  intros H z p rp pitch tooth rc A I PIL RD RT BA GAP FA S T TOP MISS PL RF.
  pose proof (spur_core g n z H) as K. cbv zeta in K. destruct K as (E1 & E2 & E3 & E4 & E5 & E6 & E7 & E8 & SO & _).
  change (ig_in g) with p in E2, E3, E4, E7, E8.
  pose proof (ps_cyl _ _ H) as CY. assert (N : 0 < IZR n) by (apply IZR_lt, (cy_n _ _ CY)).
  assert (P : 0 < rp) by (unfold rp; lra). assert (AB : 0 < ip_alpha p < PI / 2) by (pose proof (cy_alpha _ _ CY) as AL; change (ig_in g) with p in AL; lra).
  assert (C : 0 < cos (ip_alpha p)) by (apply cos_gt_0; lra).
  assert (PP : 0 < pitch) by (unfold pitch; pose proof PI_RGT_0; apply Rmult_lt_0_compat; [lra|apply Rinv_0_lt_compat, N]).
  assert (FP : V rt 0 0 = flank_point rp (ip_alpha p) (ig_pia g z) rt).
  { unfold flank_point. rewrite FA. unfold circle_pt. rewrite cos_0, sin_0. apply vec_eq; cbn; ring. }
  destruct (C51_cylindrical rp (ip_add p + ip_shift p) (ip_ded p - ip_shift p) (k_ho (ig_core g)) rp P ltac:(lra) ltac:(lra))
    as (_ & (_ & m1 & CA) & CDD & _). fold rc in CA, CDD. pose proof CDD as (_ & m2 & CD).
  destruct (tooth_rising ts rp (ip_alpha p) (ig_pia g z) P AB I S T) as (RN & W & _). fold tooth in RN, W.
  destruct (tip_cut ts rp (ip_alpha p) (ig_pia g z) 1 P AB I S T ltac:(lra)) as (n1 & EN & RN1 & W1 & T1 & EK). fold tooth in EN, T1.
  assert (EV : forall s, n_eval tooth s = Ok (n_point tooth s)) by (apply leaves_wf; [apply (rn_act _ _ RN)|apply (rising_positive rad2), (rn_leaves _ _ RN)]).
  assert (TT : trim_tip sv tooth (rc_a rc) 0 pitch = Ok n1).
  { unfold trim_tip. destruct (Rlt_dec 0 0); [lra|]. cbv zeta. destruct (MISS EQUALITY) as (M1 & _). destruct (MISS MINDISTANCE) as (M2 & M3).
    cbv zeta in M1, M2, M3. rewrite M1. destruct (sv_meet sv MINDISTANCE tooth (rc_a rc) (9 / 10) _) as [[ok x0] x1]. cbn [fst snd] in M2, M3. subst ok.
    rewrite EV. cbn [bind orb]. unfold lt_b at 1. destruct (Rlt_dec _ _) as [G|G]; [lra|]. cbn [andb]. rewrite PL. exact EN. }
  destruct (root_cut sv rp (ip_alpha p) (ig_pia g z) (ip_ded p - ip_shift p) pitch n1 rt (rc_d rc) P C ltac:(lra) RD (proj1 RT) BA GAP ltac:(lra) RN1 W1 EK
    ltac:(congruence) CDD (RF n1 TT)) as (t & TR & FO & NO & P0 & P1 & PS & _).
  assert (TF : trim_flank sv tooth rc 0 0 pitch = Ok t) by (unfold trim_flank; rewrite TT; exact TR).
  assert (FR : List.Forall fresh (leaves tooth)) by (apply (rn_fresh rad2), RN).
  pose proof (spur_flank sv fs ts g n z t H FR TF FO NO) as FL. cbv zeta in FL. fold p rp rc in FL.
  assert (RA : arc_radius (rc_a rc) = rp + (ip_add p + ip_shift p)) by (unfold arc_radius; rewrite CA; apply Rabs_right; lra).
  assert (RD' : arc_radius (rc_d rc) = rp - (ip_ded p - ip_shift p)) by (unfold arc_radius; rewrite CD; apply Rabs_right; lra).
  split.
  - destruct (C100_radii sv fs ts g z rc t FL SO) as (c & EC & CR & _); try (rewrite ?E6; lra).
    unfold ig_addendum_radius. fold z. rewrite EC. cbn [bind]. rewrite CR, E6, E7, RA. clear CR. f_equal.
    destruct (Rlt_dec _ _) as [G|G]; [exfalso|ring]. revert G. unfold tip_gap. rewrite P1, <- FP. unfold flip. cbn [vx vy vz].
    replace (vsub _ _) with ORIGIN by (apply vec_eq; vec_simpl; ring). rewrite norm_ORIGIN. assert (0 < / 10000000000) by (apply Rinv_0_lt_compat; lra). lra.
  - destruct FL as [_ _ (tooth' & f & ET & ER & EF & FRf & TRf)]. cbv zeta in *.
    destruct (C91_profile sv fs tooth' (k_rp (ig_core g)) (k_ha (ig_core g)) (k_hd (ig_core g)) (k_ho (ig_core g)) (k_cone (ig_core g)) (k_rp (ig_core g))
      (ip_tip_fillet (ig_in g)) (ip_root_fillet (ig_in g)) (ip_tip_trunc (ig_in g)) (2 * PI / ip_teeth (ig_in g)) (k_slice (ig_core g) z) f t)
      as (q & a & b & EP & _ & _ & PT & _).
    { rewrite <- ER. exact EF. } { exact FRf. } { rewrite <- ER. exact TRf. } { exact FO. } { fold p. rewrite E8. exact NO. }
    exists q. split; [unfold ig_profile; rewrite ET; exact EP|]. rewrite PT. intros s Hs. destruct (PS s Hs) as (r & R & ->).
    unfold flank_point. rewrite circle_pt_norm; lra.
Qed.

(** Eight teeth of module two, pressure angle 30 degrees. *)
Definition ex_param (add backlash : R) : iparam := mkIP 8 3 0 0 ORIGIN 0 2 false 0 0 0 0 add 1 (PI / 6) backlash 0 false 0.
Lemma ex_plain add b : plain_spur (ig_new (ex_param add b)) 8 /\
  (forall z, ig_pia (ig_new (ex_param add b)) z = PI / 16 - b / 4) /\ ig_in (ig_new (ex_param add b)) = ex_param add b.
Proof.
  pose proof PI_RGT_0.
  assert (NN : ip_normalise (ex_param add b) = ex_param add b).
  { unfold ip_normalise, ex_param. cbn [ip_teeth]. destruct (Rlt_dec 8 0); [lra|reflexivity]. }
  assert (EI : ig_in (ig_new (ex_param add b)) = ex_param add b) by (unfold ig_new; rewrite NN; reflexivity).
  split; [|split; [|exact EI]].
  - split.
    + apply (ig_new_cylindrical (ex_param add b) 8); cbn; try lra; try lia.
    + unfold ig_new. rewrite NN. cbn. apply rotation_I.
    + rewrite EI. reflexivity.
    + rewrite EI. reflexivity.
    + rewrite EI. reflexivity.
    + rewrite EI. reflexivity.
  - intros z. unfold ig_pia, crowning. rewrite EI. unfold ig_new. rewrite NN. cbn [ex_param ig_core calc_params k_rp k_tooth_angle ip_height ip_crown ip_teeth ip_shift ip_alpha ip_backlash].
    unfold Rdiv. field.
Qed.

Example C100_spur_example : exists sv fs ts, let g := ig_new (ex_param (2 * sqrt 6 - 4) 0) in
  ig_addendum_radius sv fs ts g = Ok (4 * sqrt 6) /\ ig_dedendum_radius sv fs ts g = Ok 6.
Proof.
  destruct ex_ts as (ts & S & T & E). pose proof PI_RGT_0. pose proof ex_spur as SP.
  assert (C : cos (PI / 6) = sqrt 3 / 2) by apply cos_PI6.
  assert (S3 : 17 / 10 < sqrt 3) by (apply sqrt_bound; lra). assert (S3' : sqrt 3 < 1733 / 1000) by (apply sqrt_bound_up; lra).
  assert (S6 : 2 < sqrt 6) by (apply sqrt_bound; lra). assert (S5 : 2 < sqrt 5) by (apply sqrt_bound; lra).
  assert (S6' : sqrt 6 < 3) by (apply sqrt_bound_up; lra).
  destruct (C105_solvable ts 4 (PI / 6) (PI / 16) (2 * sqrt 6 - 4) 1 2 4 (PI / 4) SP S T) as (sv & TF & RF); try (rewrite ?C; lra).
  { rewrite E. assert (17 / 10 * 2 <= sqrt 3 * sqrt 5) by (apply Rmult_le_compat; lra). lra. }
  destruct (ex_plain (2 * sqrt 6 - 4) 0) as (PL & PA & EI).
  assert (PA' : forall z, ig_pia (ig_new (ex_param (2 * sqrt 6 - 4) 0)) z = PI / 16) by (intros z; rewrite PA; field).
  exists sv, (meets_at 1), ts. cbv zeta.
  destruct (C100_spur sv (meets_at 1) ts _ 8 PL) as (RA & RD).
  - unfold spur_at. rewrite EI, PA'. cbn [ex_param ip_alpha ip_add ip_ded ip_shift].
    replace (8 / 2) with 4 by field. replace (2 * PI / 8) with (PI / 4) by field. rewrite Rplus_0_r, Rminus_0_r. exact SP.
  - unfold searched. rewrite EI, PA'. cbn [ex_param ip_alpha ip_add ip_ded ip_shift].
    replace (k_ho (ig_core (ig_new (ex_param (2 * sqrt 6 - 4) 0)))) with 2.
    2:{ unfold ig_new, ip_normalise. cbn [ex_param ip_teeth]. destruct (Rlt_dec 8 0); [lra|reflexivity]. }
    replace (8 / 2) with 4 by field. replace (2 * PI / 8) with (PI / 4) by field. rewrite Rplus_0_r, Rminus_0_r. auto.
  - rewrite RA, RD, EI. cbn [ex_param ip_module ip_add ip_ded ip_shift]. split; f_equal; field.
Qed.

(** With a longer addendum and some backlash the teeth of this gear come to a point 9.8 from the axis; the reported radius is 10. *)
Theorem C100_tip_refuted : exists sv fs ts b, let g := ig_new (ex_param 1 b) in
  ig_addendum_radius sv fs ts g = Ok 10 /\
  exists q, ig_profile sv fs ts g (k_z_first (ig_core g)) = Ok q /\
    forall s, 0 <= s <= 1 -> ip_module (ig_in g) * norm (n_point (pr_tooth q) s) < 98 / 10.
Proof.
  pose proof PI_3 as P3. pose proof PI_4 as P4.
  assert (C : cos (PI / 6) = sqrt 3 / 2) by apply cos_PI6.
  assert (S3 : 17 / 10 < sqrt 3) by (apply sqrt_bound; lra). assert (S3' : sqrt 3 < 1733 / 1000) by (apply sqrt_bound_up; lra).
  assert (S6 : 2 < sqrt 6) by (apply sqrt_bound; lra). assert (S6' : sqrt 6 < 2449491 / 1000000) by (apply sqrt_bound_up; lra).
  assert (T6 : tan (PI / 6) = 1 / sqrt 3) by apply tan_PI6.
  assert (Q3 : 1 / sqrt 3 = sqrt 3 / 3).
  { pose proof (sqrt_sqrt 3 ltac:(lra)) as Q. field_simplify_eq; [|lra]. replace (sqrt 3 ^ 2) with (sqrt 3 * sqrt 3) by ring. lra. }
  assert (I6 : inv (PI / 6) = sqrt 3 / 3 - PI / 6) by (unfold inv; rewrite T6, Q3; ring).
  set (pia := 1 - PI / 4 - inv (PI / 6)). set (b := PI / 4 - 4 * pia).
  destruct (C42_solver_value_exists 4 (PI / 6) ltac:(lra) ltac:(lra)) as (s2 & E).
  assert (I0 : incr (c_ss (involute_curve0 4 (PI / 6)))) by (apply involute0_incr; lra).
  set (c := involute_curve1 4 (PI / 6) pia s2).
  assert (R0 : rising rad2 (involute_curve0 4 (PI / 6))).
  { split.
    - apply new_fresh.
    - apply NDIV_2.
    - reflexivity.
    - left. eexists. reflexivity.
    - cbn. lra.
    - intros t t' T0 T1 _. rewrite !involute0_fun. change (c_t0 (involute_curve0 4 (PI / 6))) with 0 in T0. apply flank_rising; try assumption. rewrite C. lra. }
  destruct (rising_hit rad2 (involute_curve0 4 (PI / 6)) 1 R0 ltac:(cbn; lra)) as (u & U & EU).
  assert (U0 : 0 < u).
  { destruct (Req_dec u 0) as [->|]; [|lra]. exfalso. destruct (rising_ends rad2 _ R0) as (Z & _).
    change (c_t0 (involute_curve0 4 (PI / 6))) with 0 in Z. lra. }
  set (ts := mkTs (fun _ _ _ _ _ => (true, s2, 0)) (fun _ _ _ _ _ => (true, u)) (fun _ _ => 0) (fun _ _ => (0, 0)) (fun _ _ _ => (0, 0))).
  assert (S : solved ts 4 (PI / 6)) by exact E.
  assert (T : top_found ts 4 (PI / 6) pia) by (unfold top_found; cbn; lra).
  destruct (tooth_rising ts 4 (PI / 6) pia ltac:(lra) ltac:(lra) ltac:(lra) S T) as (RN & W & c0 & c1 & L & E0 & D0 & D1 & F0 & C1 & D2 & F1).
  set (n := plane_involute_tooth ts 4 (PI / 6) pia) in *.
  set (rc := generate_reference_circles 4 1 1 2 0 4).
  destruct (C51_cylindrical 4 1 1 2 4 ltac:(lra) ltac:(lra) ltac:(lra)) as (_ & (CA & _) & (CD & _) & _). fold rc in CA, CD.
  pose proof (rn_leaves _ _ RN) as RL. rewrite L in RL. pose proof (Forall_inv RL) as R1. pose proof (Forall_inv (Forall_inv_tail RL)) as R2.
  assert (FA : flank_angle 4 (PI / 6) pia (2 * sqrt 6) = 0).
  { unfold flank_angle. replace (2 * sqrt 6) with (2 * (sqrt 2 * sqrt 3)).
    2:{ rewrite <- sqrt_mult by lra. replace (2 * 3) with 6 by ring. ring. }
    assert (S2 : 0 < sqrt 2) by (apply sqrt_lt_R0; lra).
    replace (4 * cos (PI / 6) / (2 * (sqrt 2 * sqrt 3))) with (1 / sqrt 2) by (rewrite C; field; lra).
    rewrite <- cos_PI4, Rmin_right by apply COS_bound. rewrite acos_cos by lra.
    unfold inv at 1. rewrite tan_PI4. unfold pia. lra. }
  assert (TOP : n_point n 1 = V (2 * sqrt 6) 0 0).
  { destruct (leaves_ends n c0 (rn_act _ _ RN) (rising_positive rad2 _ (rn_leaves _ _ RN))) as (_ & ->). rewrite L. cbn [last].
    rewrite fresh_end by (apply (ri_fresh _ _ R2) || apply (ri_ndiv _ _ R2)). rewrite F1.
    replace (c_t1 c1) with 1 by (rewrite C1, <- EU; reflexivity).
    rewrite flank_high by (rewrite ?C; lra).
    replace (4 * cos (PI / 6) * sqrt (1 + 1 * 1)) with (2 * sqrt 6).
    2:{ rewrite C. replace (1 + 1 * 1) with 2 by ring. replace 6 with (2 * 3) by ring. rewrite sqrt_mult by lra. field. }
    unfold flank_point. rewrite FA. unfold circle_pt. rewrite cos_0, sin_0. apply vec_eq; vec_simpl; ring. }
  (* the flank cut at the tip, and its crossing with the root circle *)
  destruct (rn_end rad2 _ n 1 RN W ltac:(lra)) as (n1 & EN & RN1 & W1 & _ & T1E & pre & c' & post & uc & LN & LN1 & UC & CU & _).
  assert (CC : exists l, leaves n1 = c0 :: l).
  { rewrite L in LN. destruct pre as [|d0 pre]; cbn in LN.
    - exfalso. injection LN as <- _. rewrite TOP in CU. unfold c_eval in CU. rewrite F0 in CU.
      apply (f_equal rad2) in CU. rewrite rad2_circle in CU. unfold rad2 in CU. cbn [vx vy] in CU.
      pose proof (rising_dom rad2 c0 uc R1 ltac:(lra)) as DD. rewrite D0, D1 in DD.
      replace (2 * sqrt 6 * (2 * sqrt 6) + 0 * 0) with (2 * sqrt 6 * (2 * sqrt 6)) in CU by ring.
      assert (0 < 4 * cos (PI / 6) * (1 + s2t c0 uc) / 2 <= sqrt 3 * 2).
      { rewrite C. split.
        - assert (0 < sqrt 3 * (1 + s2t c0 uc)) by (apply Rmult_lt_0_compat; lra). lra.
        - assert (sqrt 3 * (1 + s2t c0 uc) <= sqrt 3 * 2) by (apply Rmult_le_compat_l; lra). lra. }
      apply sq_eq in CU; lra.
    - injection LN as <- _. eexists. rewrite LN1. reflexivity. }
  destruct CC as (l & LN'). clear LN LN1 CU UC.
  assert (QX : 0 <= sqrt 3 - 1 <= 1) by lra.
  destruct (rising_hit rad2 c0 (sqrt 3 - 1) R1 ltac:(rewrite D0, D1; exact QX)) as (v & V0 & EV).
  assert (V1 : v < 1). { destruct (Req_dec v 1) as [->|]; [|lra]. destruct (rising_ends rad2 c0 R1). lra. }
  destruct (leaf_place rad2 n1 [] c0 l v RN1 LN' V0 (or_introl eq_refl)) as (y0 & Y0 & _ & Y1 & PY). specialize (Y1 V1).
  set (y1 := flank_angle 4 (PI / 6) pia 3 / (2 * PI)).
  assert (FL : flank_angle 4 (PI / 6) pia 3 = - (pia + inv (PI / 6))) by (apply flank_low; rewrite ?C; lra).
  assert (MY : meets n1 y0 (rc_d rc) y1).
  { unfold meets. rewrite (leaves_wf n1 (rn_act _ _ RN1) (rising_positive rad2 _ (rn_leaves _ _ RN1))). f_equal. rewrite PY.
    unfold c_eval at 1. rewrite EV, F0, CD. unfold y1. replace (2 * PI * (flank_angle 4 (PI / 6) pia 3 / (2 * PI))) with (flank_angle 4 (PI / 6) pia 3) by (field; lra).
    rewrite FL. replace (4 * cos (PI / 6) * (1 + (sqrt 3 - 1)) / 2) with (4 - 1).
    2:{ rewrite C. pose proof (sqrt_sqrt 3 ltac:(lra)). lra. } reflexivity. }
  set (sv := mkSv (fun _ _ _ g _ => if Req_EM_T g (9 / 10) then (false, 1, 0) else (true, y0, y1)) (fun _ _ _ => 1) (fun _ _ => 0)).
  assert (SV : forall m t c y, sv_meet sv m t c (9 / 10) y = (false, 1, 0)).
  { intros. unfold sv. cbn [sv_meet]. destruct (Req_EM_T (9 / 10) (9 / 10)); [reflexivity|lra]. }
  exists sv, (meets_at 1), ts, b. cbv zeta.
  destruct (ex_plain 1 b) as (PL & PA & EI).
  assert (PA' : forall z, ig_pia (ig_new (ex_param 1 b)) z = pia) by (intros z; rewrite PA; unfold b; lra).
  assert (HO : k_ho (ig_core (ig_new (ex_param 1 b))) = 2).
  { unfold ig_new, ip_normalise. cbn [ex_param ip_teeth]. destruct (Rlt_dec 8 0); [lra|reflexivity]. }
  pose proof (C100_pointed sv (meets_at 1) ts (ig_new (ex_param 1 b)) 8 (2 * sqrt 6) PL) as X. cbv zeta in X.
  rewrite EI, PA', HO in X. cbn [ex_param ip_alpha ip_add ip_ded ip_shift ip_module] in X.
  replace (8 / 2) with 4 in X by field. replace (2 * PI / 8) with (PI / 4) in X by field. rewrite !Rplus_0_r, !Rminus_0_r in X.
  fold n rc in X. destruct X as (X1 & q & X2 & X3); try assumption; try lra.
  - replace (4 - 1) with 3 by ring. rewrite FL. unfold pia. lra.
  - intros m. rewrite SV. cbn [fst snd]. split; [reflexivity|].
    rewrite TOP, CA, Rmult_0_r, cos_0, sin_0.
    replace (vsub _ _) with (smul (-1) (V (5 - 2 * sqrt 6) 0 0)) by (apply vec_eq; vec_simpl; ring).
    rewrite norm_smul, Rabs_left by lra. unfold norm, dot. cbn [vx vy vz].
    replace (_ + 0 * 0 + 0 * 0) with ((5 - 2 * sqrt 6) * (5 - 2 * sqrt 6)) by ring. rewrite sqrt_square by lra. lra.
  - reflexivity.
  - intros n2 TT. assert (n2 = n1) as ->.
    { revert TT. unfold trim_tip. destruct (Rlt_dec 0 0); [lra|]. cbv zeta. rewrite !SV. cbn [fst snd].
      rewrite (leaves_wf n (rn_act _ _ RN) (rising_positive rad2 _ (rn_leaves _ _ RN))). cbn [bind orb].
      unfold lt_b at 1. destruct (Rlt_dec _ _) as [G|G]; cbn [andb].
      - exfalso. revert G. rewrite TOP, CA, Rmult_0_r, cos_0, sin_0.
        replace (vsub _ _) with (smul (-1) (V (5 - 2 * sqrt 6) 0 0)) by (apply vec_eq; vec_simpl; ring).
        rewrite norm_smul, Rabs_left by lra. unfold norm, dot. cbn [vx vy vz].
        replace (_ + 0 * 0 + 0 * 0) with ((5 - 2 * sqrt 6) * (5 - 2 * sqrt 6)) by ring. rewrite sqrt_square by lra. lra.
      - unfold sv at 1. cbn [sv_plane]. rewrite EN. intros Q. apply Ok_inj in Q. auto. }
    exists y0, y1. split; [|split; [lra|exact MY]]. unfold sv. cbn [sv_meet]. destruct (Req_EM_T _ _); [lra|reflexivity].
  - split; [rewrite X1; f_equal; field|]. exists q. split; [exact X2|]. rewrite EI. cbn [ex_param ip_module]. intros s Hs. specialize (X3 s Hs). lra.
Qed.

(** ** C105 for a gear object *)
Theorem C105_gear sv fs ts g n z : plain_spur g n -> spur_at g n z -> searched sv ts g n z ->
  let ip := ig_in g in let rp := IZR n / 2 in let pia := ig_pia g z in
  let rd := rp - (ip_ded ip - ip_shift ip) in let ra := rp + (ip_add ip + ip_shift ip) in
  exists p, ig_profile sv fs ts g z = Ok p /\
    arc_radius (pr_ra p) = ra /\ arc_radius (pr_rd p) = rd /\ arc_radius (pr_ro p) = rp - outside_depth rp (k_ho (ig_core g)) /\
    arc_center (pr_ra p) = ORIGIN /\ arc_center (pr_rd p) = ORIGIN /\ arc_center (pr_ro p) = ORIGIN /\
    n_point (pr_tooth p) 0 = flank_point rp (ip_alpha ip) pia rd /\ n_point (pr_tooth p) 1 = flank_point rp (ip_alpha ip) pia ra /\
    (forall s, 0 <= s <= 1 -> exists r, rd <= r <= ra /\ n_point (pr_tooth p) s = flank_point rp (ip_alpha ip) pia r).
Proof.
  intros H SP (S & T & TF & RF) ip rp pia rd ra.
  pose proof (spur_core g n z H) as K. cbv zeta in K. destruct K as (E1 & E2 & E3 & E4 & E5 & E6 & E7 & E8 & SO & _).
  destruct (C105_profile sv fs ts _ _ _ _ _ (k_ho (ig_core g)) _ _ (k_slice (ig_core g) z) SP S T TF RF) as (p & EP & _ & A1 & A2 & A3 & A4 & A5 & A6 & A7).
  exists p. split.
  { unfold ig_profile. rewrite (spur_tooth ts g n z H). cbn [bind]. rewrite E1, E3, E4, E5, E8, (ps_tip _ _ H), (ps_root _ _ H), (ps_trunc _ _ H). exact EP. }
  destruct (profile_parts _ _ _ _ _ _ _ _ _ _ _ _ _ _ _ EP) as (f & t & p0 & _ & _ & EA & _ & _ & RO & _).
  destruct (assemble_ro _ _ _ _ EA) as (R1 & R2). destruct SP as [P A I PI0 RD HH BA GAP LAND].
  assert (RR : forall tooth rc, reduced_circles fs tooth rc 0 0 (IZR n / 2) = rc) by (intros; unfold reduced_circles; destruct (Rlt_dec 0 0); [lra|reflexivity]).
  rewrite RR in R1, R2.
  destruct (C51_cylindrical (IZR n / 2) (ip_add ip + ip_shift ip) (ip_ded ip - ip_shift ip) (k_ho (ig_core g)) (IZR n / 2) P) as (_ & _ & _ & (_ & m & CO) & OD);
    try (fold ip in RD, HH; lra).
  assert (0 < / 1000000) by (apply Rinv_0_lt_compat; lra).
  fold ip in R1, R2. unfold arc_radius in R1 at 2. unfold arc_center in R2 at 2. rewrite CO in R1, R2. rewrite Rabs_right in R1 by lra.
  rewrite <- RO in R1, R2. auto 12.
Qed.

Lemma ex_searched : exists sv ts, let g := ig_new (ex_param (2 * sqrt 6 - 4) 0) in plain_spur g 8 /\ ig_in g = ex_param (2 * sqrt 6 - 4) 0 /\
  k_ho (ig_core g) = 2 /\ forall z, spur_at g 8 z /\ searched sv ts g 8 z.
Proof.
  destruct ex_ts as (ts & S & T & E). pose proof PI_RGT_0. pose proof ex_spur as SP.
  assert (C : cos (PI / 6) = sqrt 3 / 2) by apply cos_PI6.
  assert (S3 : 17 / 10 < sqrt 3) by (apply sqrt_bound; lra). assert (S3' : sqrt 3 < 1733 / 1000) by (apply sqrt_bound_up; lra).
  assert (S6 : 2 < sqrt 6) by (apply sqrt_bound; lra). assert (S5 : 2 < sqrt 5) by (apply sqrt_bound; lra).
  assert (S6' : sqrt 6 < 3) by (apply sqrt_bound_up; lra).
  destruct (C105_solvable ts 4 (PI / 6) (PI / 16) (2 * sqrt 6 - 4) 1 2 4 (PI / 4) SP S T) as (sv & TF & RF); try (rewrite ?C; lra).
  { rewrite E. assert (17 / 10 * 2 <= sqrt 3 * sqrt 5) by (apply Rmult_le_compat; lra). lra. }
  destruct (ex_plain (2 * sqrt 6 - 4) 0) as (PL & PA & EI).
  assert (PA' : forall z, ig_pia (ig_new (ex_param (2 * sqrt 6 - 4) 0)) z = PI / 16) by (intros z; rewrite PA; field).
  assert (HO : k_ho (ig_core (ig_new (ex_param (2 * sqrt 6 - 4) 0))) = 2).
  { unfold ig_new, ip_normalise. cbn [ex_param ip_teeth]. destruct (Rlt_dec 8 0); [lra|reflexivity]. }
  exists sv, ts. cbv zeta. split; [exact PL|]. split; [exact EI|]. split; [exact HO|]. intros z. split.
  - unfold spur_at. rewrite EI, PA'. cbn [ex_param ip_alpha ip_add ip_ded ip_shift].
    replace (8 / 2) with 4 by field. replace (2 * PI / 8) with (PI / 4) by field. rewrite Rplus_0_r, Rminus_0_r. exact SP.
  - unfold searched. rewrite EI, PA', HO. cbn [ex_param ip_alpha ip_add ip_ded ip_shift].
    replace (8 / 2) with 4 by field. replace (2 * PI / 8) with (PI / 4) by field. rewrite Rplus_0_r, Rminus_0_r. auto.
Qed.

(** The example gear: tip, pitch, root and outside circle reported, at any height, anywhere it is placed. *)
Example C99_example : exists sv fs ts, let g := ig_new (ex_param (2 * sqrt 6 - 4) 0) in
  forall z, exists c, ig_circles sv fs ts g z = Ok c /\
  arc_radius (rc_a c) = 4 * sqrt 6 /\ arc_radius (rc_p c) = 8 /\ arc_radius (rc_d c) = 6 /\ arc_radius (rc_o c) = 4 /\
  (forall s, c_eval (rc_p c) s = V (8 * cos (2 * PI * s)) (8 * sin (2 * PI * s)) (2 * z)) /\ arc_center (rc_o c) = V 0 0 (2 * z).
Proof.
  destruct ex_searched as (sv & ts & PL & EI & HO & SE). exists sv, (meets_at 1), ts. cbv zeta. intros z. destruct (SE z) as (SA & SS).
  destruct (C105_gear sv (meets_at 1) ts _ 8 z PL SA SS) as (p & EP & A1 & A2 & A3 & A4 & A5 & A6 & _).
  pose proof (spur_core _ 8 z PL) as K. cbv zeta in K. destruct K as (E1 & E2 & E3 & E4 & E5 & E6 & E7 & E8 & SO & NT).
  assert (S6 : 2 < sqrt 6) by (apply sqrt_bound; lra).
  assert (O4 : outside_depth (8 / 2) 2 = 2) by (unfold outside_depth; apply Rmin_left; lra).
  rewrite EI in A1, A2, E7. rewrite HO, O4 in A3. cbn [ex_param ip_add ip_ded ip_shift ip_module] in A1, A2, E7.
  destruct (C99_circles sv (meets_at 1) ts _ z p EP SO) as (c & EC & PA & PP & PD & PO); try (rewrite ?E6, ?NT, ?A1, ?A2, ?A3; lra).
  exists c. split; [exact EC|]. cbv zeta in PA, PP, PD, PO.
  destruct PA as [_ PA _]. destruct PP as [PE PP _]. destruct PD as [_ PD _]. destruct PO as [_ PO PC].
  rewrite PA, PP, PD, PO, PC, E6, E7, A1, A2, A3, A6, NT. repeat (split; [lra|]).
  assert (EV : forall q, apply_gear_transform (apply_gear_transform q (k_slice (ig_core (ig_new (ex_param (2 * sqrt 6 - 4) 0))) z)) (k_trf (ig_core (ig_new (ex_param (2 * sqrt 6 - 4) 0)))) =
     V (2 * vx q) (2 * vy q) (2 * (vz q + z))).
  { intros q. rewrite !apply_gear_transform_eq. unfold ig_new, ip_normalise. cbn [ex_param ip_teeth]. destruct (Rlt_dec 8 0); [lra|].
    cbn [ex_param ip_teeth ip_inside ig_core calc_params k_trf k_slice g_scale g_orient g_center g_angle k_gamma k_spiral k_tooth ip_cone ip_helix ip_center ip_module ip_angle].
    replace (0 / 2) with 0 by field. rewrite tan_0, sin_0, cos_0. unfold Rdiv. rewrite !Rmult_0_l, !Rmult_0_r, Rmult_0_l, !mapp_I.
    unfold rotz. rewrite cos_0, sin_0. destruct q. apply vec_eq; vec_simpl; ring. }
  split.
  - intros s. rewrite PE, EV, NT. apply vec_eq; vec_simpl; lra.
  - rewrite EV. apply vec_eq; vec_simpl; ring.
Qed.

(** ** C102: face and centre locations *)
Lemma loc_split T q : rotation (g_orient T) -> loc_point (transform2Location T) (smul (g_scale T) q) = apply_gear_transform q T /\
  loc_pos (transform2Location T) = g_center T.
Proof.
  intros H. split; [apply C61_placement, H|]. unfold transform2Location. destruct (as_euler_zyx _) as [[a b] c]. reflexivity.
Qed.
Lemma sound_slice k z : sound k -> rotation (g_orient (g_mul (k_trf k) (k_slice k z))).
Proof. intros [_ HR]. cbn [g_mul g_orient k_slice]. apply rotation_mmul; [exact HR|apply rotation_I]. Qed.

(** The centre location carries the coordinates of the slice to the gear's; the face location is the same frame moved to the
    centre of the outside circle. *)
Theorem C102_center g z q : sound (ig_core g) ->
  loc_point (ig_center_location g z) (smul (g_scale (k_trf (ig_core g)) * g_scale (k_slice (ig_core g) z)) q) =
    apply_gear_transform (apply_gear_transform q (k_slice (ig_core g) z)) (k_trf (ig_core g)) /\
  loc_pos (ig_center_location g z) = ig_center_point_at_z g z.
Proof.
  intros SO. destruct (loc_split (ig_center_transform_at_z g z) q (sound_slice _ z SO)) as (A & B).
  split; [|exact B]. unfold ig_center_location. rewrite <- slice_comp. exact A.
Qed.
Theorem C102_face sv fs ts g z p : ig_profile sv fs ts g z = Ok p -> sound (ig_core g) ->
  0 < g_scale (k_slice (ig_core g) z) -> 0 < arc_radius (pr_ro p) ->
  exists l, ig_face_location sv fs ts g z = Ok l /\ loc_rot l = loc_rot (ig_center_location g z) /\
    forall q, loc_point l (smul (g_scale (k_trf (ig_core g)) * g_scale (k_slice (ig_core g) z)) q) =
      apply_gear_transform (apply_gear_transform (vadd (arc_center (pr_ro p)) q) (k_slice (ig_core g) z)) (k_trf (ig_core g)).
Proof.
  intros E SO SS RO. unfold ig_face_location, ig_circles. rewrite E. cbn [bind]. eexists. split; [reflexivity|]. split; [reflexivity|].
  intros q. unfold radii_data. cbn [rc_o]. rewrite (profile_trf _ _ _ _ _ _ E).
  rewrite (pc_center _ _ _ _ _ (placed_moved (ig_core g) z _ (arc_center (pr_ro p)) SO SS RO)).
  destruct (C102_center g z q SO) as (A & _). destruct (C102_center g z ORIGIN SO) as (A0 & _).
  unfold loc_point in A, A0 |- *. cbn [loc_rot loc_pos].
  assert (ML : mapp (loc_rot (ig_center_location g z)) (smul (g_scale (k_trf (ig_core g)) * g_scale (k_slice (ig_core g) z)) q) =
    vsub (apply_gear_transform (apply_gear_transform q (k_slice (ig_core g) z)) (k_trf (ig_core g)))
         (apply_gear_transform (apply_gear_transform ORIGIN (k_slice (ig_core g) z)) (k_trf (ig_core g)))).
  { rewrite <- A, <- A0. generalize (loc_rot (ig_center_location g z)), (loc_pos (ig_center_location g z)). clear. intros m v. vec_ring. }
  rewrite ML, !apply_gear_transform_eq.
  generalize (g_orient (k_trf (ig_core g))), (g_center (k_trf (ig_core g))), (rotz (g_angle (k_trf (ig_core g)))), (g_scale (k_trf (ig_core g))),
    (g_orient (k_slice (ig_core g) z)), (g_center (k_slice (ig_core g) z)), (rotz (g_angle (k_slice (ig_core g) z))), (g_scale (k_slice (ig_core g) z)),
    (arc_center (pr_ro p)). clear. intros m1 v1 m2 s1 m3 v2 m4 s2 ce.
  assert (D : forall m a b, mapp m (vadd a b) = vadd (mapp m a) (mapp m b)) by (intros; vec_ring).
  assert (G : forall m k a, mapp m (smul k a) = smul k (mapp m a)) by (intros; vec_ring).
  assert (Z : forall m, mapp m ORIGIN = ORIGIN) by (intros; vec_ring).
  repeat first [rewrite Z|rewrite D|rewrite G].
  generalize (mapp m1 (mapp m2 (mapp m3 (mapp m4 q)))), (mapp m1 (mapp m2 (mapp m3 (mapp m4 ce)))), (mapp m1 (mapp m2 v2)). clear. intros a b c.
  destruct a, b, c, v1. apply vec_eq; vec_simpl; ring.
Qed.

(** The outside circle of a profile. *)
Lemma profile_outside sv fs ts g z p : ig_profile sv fs ts g z = Ok p -> 
  let k := ig_core g in
  arc_center (pr_ro p) = arc_center (rc_o (generate_reference_circles (k_rp k) (k_ha k) (k_hd k) (k_ho k) (k_cone k) (k_rp k))) /\
  arc_radius (pr_ro p) = arc_radius (rc_o (generate_reference_circles (k_rp k) (k_ha k) (k_hd k) (k_ho k) (k_cone k) (k_rp k))).
Proof.
  intros E. unfold ig_profile in E. destruct (ig_tooth ts g z) as [tooth|]; cbn [bind] in E; [|discriminate].
  destruct (profile_parts _ _ _ _ _ _ _ _ _ _ _ _ _ _ _ E) as (f & t & p0 & _ & _ & EA & _ & _ & RO & _).
  destruct (assemble_ro _ _ _ _ EA) as (R1 & R2). rewrite RO, R1, R2. unfold reduced_circles. destruct (Rlt_dec _ _); auto.
Qed.
(** The centre of the face lies on the axis, at the level of the outside circle. *)
Definition face_level (ca rp ho : R) : R := if Req_EM_T ca 0 then 0 else conic_level ca rp (- outside_depth rp ho).
Lemma outside_at ca rp ha hd ho : - PI < ca < PI -> 0 < rp -> (ca <> 0 -> conic_radius ca rp (- outside_depth rp ho) <> 0) ->
  arc_center (rc_o (generate_reference_circles rp ha hd ho ca rp)) = V 0 0 (face_level ca rp ho) /\
  0 < arc_radius (rc_o (generate_reference_circles rp ha hd ho ca rp)).
Proof.
  intros HC P NZ. unfold generate_reference_circles, face_level. cbn [rc_o]. rewrite outside_if. assert (D6 : 0 < / 1000000) by (apply Rinv_0_lt_compat; lra).
  assert (K : forall r z, r <> 0 -> arc_center (ref_circle (V r 0 z)) = V 0 0 z /\ 0 < arc_radius (ref_circle (V r 0 z))).
  { intros r z R. destruct (ref_circle_at r z R) as (_ & m & S). unfold arc_center, arc_radius. rewrite S. split; [reflexivity|apply Rabs_pos_lt, R]. }
  destruct (Req_EM_T ca 0) as [->|NC].
  - rewrite ref_point_cyl by exact P. apply K. unfold outside_depth. pose proof (Rmin_r ho (rp - / 1000000)). lra.
  - rewrite ref_point_conic by assumption. apply K, NZ, NC.
Qed.

Theorem C102_face_position sv fs ts g z p l : ig_profile sv fs ts g z = Ok p -> sound (ig_core g) ->
  0 < g_scale (k_slice (ig_core g) z) -> - PI < k_cone (ig_core g) < PI -> 0 < k_rp (ig_core g) ->
  (k_cone (ig_core g) <> 0 -> conic_radius (k_cone (ig_core g)) (k_rp (ig_core g)) (- outside_depth (k_rp (ig_core g)) (k_ho (ig_core g))) <> 0) ->
  ig_face_location sv fs ts g z = Ok l ->
  let level := face_level (k_cone (ig_core g)) (k_rp (ig_core g)) (k_ho (ig_core g)) in
  loc_pos l = apply_gear_transform (apply_gear_transform (V 0 0 level) (k_slice (ig_core g) z)) (k_trf (ig_core g)) /\
  norm (vsub (loc_pos l) (loc_pos (ig_center_location g z))) =
    g_scale (k_trf (ig_core g)) * g_scale (k_slice (ig_core g) z) * Rabs level.
Proof.
  intros E SO SS HC P NZ EL level. destruct (profile_outside _ _ _ _ _ _ E) as (OC & OR). cbv zeta in OC, OR.
  destruct (outside_at (k_cone (ig_core g)) (k_rp (ig_core g)) (k_ha (ig_core g)) (k_hd (ig_core g)) (k_ho (ig_core g)) HC P NZ) as (A & B).
  rewrite <- OC in A. rewrite <- OR in B. fold level in A.
  destruct (C102_face sv fs ts g z p E SO SS B) as (l' & EL' & _ & F). rewrite EL in EL'. apply Ok_inj in EL'. subst l'.
  assert (LP : loc_pos l = apply_gear_transform (apply_gear_transform (V 0 0 level) (k_slice (ig_core g) z)) (k_trf (ig_core g))).
  { specialize (F ORIGIN). rewrite A in F. unfold loc_point in F.
    replace (vadd (V 0 0 level) ORIGIN) with (V 0 0 level) in F by (apply vec_eq; vec_simpl; ring). rewrite <- F.
    generalize (loc_rot l), (loc_pos l), (g_scale (k_trf (ig_core g)) * g_scale (k_slice (ig_core g) z)). clear. intros. vec_ring. }
  split; [exact LP|]. rewrite LP. destruct (C102_center g z ORIGIN SO) as (C0 & _).
  assert (LC : loc_pos (ig_center_location g z) = apply_gear_transform (apply_gear_transform ORIGIN (k_slice (ig_core g) z)) (k_trf (ig_core g))).
  { rewrite <- C0. unfold loc_point. generalize (loc_rot (ig_center_location g z)), (loc_pos (ig_center_location g z)), (g_scale (k_trf (ig_core g)) * g_scale (k_slice (ig_core g) z)). clear. intros. vec_ring. }
  rewrite LC, !apply_gear_transform_eq. destruct SO as [S1 S2].
  assert (Q : vsub (vadd (smul (g_scale (k_trf (ig_core g))) (mapp (g_orient (k_trf (ig_core g))) (mapp (rotz (g_angle (k_trf (ig_core g))))
      (vadd (smul (g_scale (k_slice (ig_core g) z)) (mapp (g_orient (k_slice (ig_core g) z)) (mapp (rotz (g_angle (k_slice (ig_core g) z))) (V 0 0 level)))) (g_center (k_slice (ig_core g) z)))))) (g_center (k_trf (ig_core g))))
    (vadd (smul (g_scale (k_trf (ig_core g))) (mapp (g_orient (k_trf (ig_core g))) (mapp (rotz (g_angle (k_trf (ig_core g))))
      (vadd (smul (g_scale (k_slice (ig_core g) z)) (mapp (g_orient (k_slice (ig_core g) z)) (mapp (rotz (g_angle (k_slice (ig_core g) z))) ORIGIN))) (g_center (k_slice (ig_core g) z)))))) (g_center (k_trf (ig_core g)))) =
    smul (g_scale (k_trf (ig_core g)) * g_scale (k_slice (ig_core g) z)) (mapp (g_orient (k_trf (ig_core g))) (mapp (rotz (g_angle (k_trf (ig_core g)))) (V 0 0 level)))).
  { assert (OI : g_orient (k_slice (ig_core g) z) = UNIT3X3) by reflexivity. rewrite OI, !mapp_I.
    replace (mapp (rotz (g_angle (k_slice (ig_core g) z))) (V 0 0 level)) with (V 0 0 level) by (unfold rotz; apply vec_eq; vec_simpl; ring).
    replace (mapp (rotz (g_angle (k_slice (ig_core g) z))) ORIGIN) with ORIGIN by (unfold rotz; apply vec_eq; vec_simpl; ring).
    generalize (g_orient (k_trf (ig_core g))), (g_center (k_trf (ig_core g))), (rotz (g_angle (k_trf (ig_core g)))), (g_scale (k_trf (ig_core g))),
      (g_center (k_slice (ig_core g) z)), (g_scale (k_slice (ig_core g) z)). clear. intros m1 v1 m2 s1 v2 s2.
    assert (D : forall m a b, mapp m (vadd a b) = vadd (mapp m a) (mapp m b)) by (intros; vec_ring).
    assert (G : forall m k a, mapp m (smul k a) = smul k (mapp m a)) by (intros; vec_ring).
    assert (Z : forall m, mapp m ORIGIN = ORIGIN) by (intros; vec_ring).
    repeat first [rewrite Z|rewrite D|rewrite G]. generalize (mapp m1 (mapp m2 (V 0 0 level))), (mapp m1 (mapp m2 v2)). clear. intros a b.
    destruct a, b, v1. apply vec_eq; vec_simpl; ring. }
  rewrite Q, norm_smul, !orthogonal_norm by (apply S2 || apply rotation_rotz).
  rewrite Rabs_right by (apply Rle_ge, Rlt_le, Rmult_lt_0_compat; assumption). f_equal.
  unfold norm, dot. cbn [vx vy vz]. replace (0 * 0 + 0 * 0 + level * level) with (Rsqr level) by (unfold Rsqr; ring). apply sqrt_Rsqr_abs.
Qed.
(** So the two locations agree on a cylindrical gear, and never on an external bevel gear. *)
Theorem C102_agree ca rp ho : - PI < ca < PI -> / 1000000 < rp -> 0 < ho -> face_level ca rp ho = 0 <-> ca = 0.
Proof.
  intros HC HR HO. unfold face_level. destruct (Req_EM_T ca 0) as [E|E]; [tauto|]. split; [|contradiction]. intros L. exfalso.
  assert (P : 0 < / 1000000) by (apply Rinv_0_lt_compat; lra). assert (Hb : 0 < rp) by lra.
  pose proof (polar_R_pos ca rp (Rgt_not_eq _ _ Hb) HC E) as RP. pose proof (polar_R ca rp HC E Hb) as RS.
  unfold conic_level in L. set (RR := c_R (polar_cone ca rp)) in *. set (g := Rabs (ca / 2)) in *.
  assert (G : 0 < g < PI / 2) by (split; [apply Rabs_pos_lt; lra|apply Rabs_def1; lra]).
  assert (D : 0 < outside_depth rp ho < rp).
  { unfold outside_depth. split; [apply Rmin_glb_lt; lra|]. pose proof (Rmin_r ho (rp - / 1000000)). lra. }
  set (d := outside_depth rp ho) in *. pose proof (sin_lt_x g (proj1 G)) as SG.
  assert (B : 0 < d / RR < g).
  { split.
    - apply Rmult_lt_0_compat; [lra|apply Rinv_0_lt_compat, RP].
    - apply Rmult_lt_reg_r with RR; [lra|]. unfold Rdiv. rewrite Rmult_assoc, Rinv_l by lra.
      assert (RR * sin g < RR * g) by (apply Rmult_lt_compat_l; assumption). lra. }
  assert (CA : cos (ca / 2) = cos g) by (unfold g, Rabs; destruct (Rcase_abs _); [rewrite cos_neg|]; reflexivity).
  rewrite CA in L. replace (- d / RR) with (- (d / RR)) in L by (unfold Rdiv; ring).
  pose proof (cos_decreasing_1 (g + - (d / RR)) g ltac:(lra) ltac:(lra) ltac:(lra) ltac:(lra) ltac:(lra)) as CD.
  assert (SZ : sign ca <> 0).
  { intros Z. pose proof (sign_sqr ca E) as SS. rewrite Z in SS. lra. }
  apply Rmult_integral in L. destruct L as [L|L]; [contradiction|].
  assert (RR * cos g < RR * cos (g + - (d / RR))) by (apply Rmult_lt_compat_l; assumption). lra.
Qed.
Example C102_example : exists sv fs ts, let g := ig_new (ex_param (2 * sqrt 6 - 4) 0) in
  forall z, exists l, ig_face_location sv fs ts g z = Ok l /\ loc_pos l = V 0 0 (2 * z) /\ loc_pos (ig_center_location g z) = V 0 0 (2 * z).
Proof.
  destruct C99_example as (sv & fs & ts & H). exists sv, fs, ts. cbv zeta in *. intros z. destruct (H z) as (c & EC & _ & _ & _ & _ & _ & CO).
  unfold ig_face_location. rewrite EC. cbn [bind]. eexists. split; [reflexivity|]. split; [exact CO|].
  destruct ex_searched as (_ & _ & PL & _). pose proof (spur_core _ 8 z PL) as K. cbv zeta in K. destruct K as (_ & _ & _ & _ & _ & _ & _ & _ & SO & _).
  rewrite (proj2 (C102_center _ z ORIGIN SO)). unfold ig_center_point_at_z, ig_center_transform_at_z, ig_new, ip_normalise. cbn [ex_param ip_teeth].
  destruct (Rlt_dec 8 0); [lra|]. cbn [ex_param ip_teeth ip_inside ig_core calc_params k_trf k_slice g_mul g_scale g_orient g_center g_angle k_gamma k_spiral k_tooth ip_cone ip_helix ip_center ip_module ip_angle].
  replace (0 / 2) with 0 by field. unfold rotz. rewrite sin_0, cos_0. apply vec_eq; vec_simpl; ring.
Qed.

(** ** C103: moving the circles by their common centre *)
Definition is_arc (c : curve) : Prop := exists r a ce m, c_shape c = SArc r a ce m.
Theorem C103_set_center c v s : is_arc c ->
  c_eval (with_center v c) s = vadd (c_eval c s) (vsub v (arc_center c)) /\ arc_radius (with_center v c) = arc_radius c /\
  arc_center (with_center v c) = v.
Proof.
  intros (r & a & ce & m & S). destruct c as [sh act t0 t1 nd len tt ss]. cbn [c_shape] in S. subst sh. split; [|auto].
  change (vadd (mapp m (mapp (rotz (a * s2t (mkCurve (SArc r a ce m) act t0 t1 nd len tt ss) s)) (smul r RIGHT))) v =
    vadd (vadd (mapp m (mapp (rotz (a * s2t (mkCurve (SArc r a ce m) act t0 t1 nd len tt ss) s)) (smul r RIGHT))) ce) (vsub v ce)).
  generalize (mapp m (mapp (rotz (a * s2t (mkCurve (SArc r a ce m) act t0 t1 nd len tt ss) s)) (smul r RIGHT))).
  intros u. destruct u, ce, v. apply vec_eq; vec_simpl; ring.
Qed.
Example C103_example s : let c := arc_curve 5 (2 * PI) (V 0 0 3) 0 0 0 true in
  is_arc c /\ c_eval (with_center (V 1 2 3) c) s = vadd (c_eval c s) (V 1 2 0).
Proof.
  intros c. assert (A : is_arc c) by (unfold is_arc, c, arc_curve; rewrite arc_new_shape; eauto 6). split; [exact A|].
  rewrite (proj1 (C103_set_center c (V 1 2 3) s A)). f_equal. unfold arc_center, c, arc_curve. rewrite arc_new_shape. apply vec_eq; vec_simpl; ring.
Qed.
(** Assigning the centre the circles already have changes nothing exactly when the four circles have one centre. *)
Theorem C103_own_center c : is_arc (rc_a c) -> is_arc (rc_p c) -> is_arc (rc_d c) -> is_arc (rc_o c) ->
  rc_set_center c (rc_center c) = c <->
  arc_center (rc_a c) = rc_center c /\ arc_center (rc_d c) = rc_center c /\ arc_center (rc_o c) = rc_center c.
Proof.
  assert (K : forall x v, is_arc x -> with_center v x = x <-> arc_center x = v).
  { intros x v (r & a & ce & m & S). destruct x as [sh act t0 t1 nd len tt ss]. cbn [c_shape] in S. subst sh. unfold with_center, arc_center. cbn [c_shape c_act c_t0 c_t1 c_ndiv c_length c_ts c_ss].
    split; [intros E; injection E as E; exact (eq_sym E)|intros ->; reflexivity]. }
  intros A P D O. unfold rc_set_center. destruct c as [ca cp cd co]. cbn [rc_a rc_p rc_d rc_o rc_center] in *. unfold rc_center in *. cbn [rc_p] in *. split.
  - intros E. injection E as E1 E2 E3 E4. apply K in E1, E3, E4; auto.
  - intros (E1 & E2 & E3). f_equal; apply K; auto.
Qed.
(** A bevel gear's circles do not have one centre: the outside circle is at another level. *)
Theorem C103_bevel_refuted sv fs ts g z p c : ig_profile sv fs ts g z = Ok p -> ig_circles sv fs ts g z = Ok c -> sound (ig_core g) ->
  0 < g_scale (k_slice (ig_core g) z) -> 0 < num_teeth (k_tooth (ig_core g)) -> - PI < k_cone (ig_core g) < PI -> k_cone (ig_core g) <> 0 -> / 1000000 < k_rp (ig_core g) -> 0 < k_ho (ig_core g) ->
  rc_set_center c (rc_center c) <> c.
Proof.
  intros E EC SO SS NT HC NC HR HO. assert (D6 : 0 < / 1000000) by (apply Rinv_0_lt_compat; lra).
  pose proof (C51_conic_outside (k_rp (ig_core g)) (k_ho (ig_core g)) (k_cone (ig_core g)) HC NC ltac:(lra) ltac:(lra)) as CR.
  destruct (profile_outside _ _ _ _ _ _ E) as (OC & OR). cbv zeta in OC, OR.
  destruct (outside_at (k_cone (ig_core g)) (k_rp (ig_core g)) (k_ha (ig_core g)) (k_hd (ig_core g)) (k_ho (ig_core g)) HC ltac:(lra) ltac:(intros; lra)) as (A & B).
  rewrite <- OC in A. rewrite <- OR in B. intros Q.
  unfold ig_circles in EC. rewrite E in EC. cbn [bind] in EC. apply Ok_inj in EC. subst c.
  assert (O1 : arc_center (rc_o (radii_data (ig_core g) p)) = rc_center (radii_data (ig_core g) p)).
  { pose proof (f_equal (fun x => arc_center (rc_o x)) Q) as Q'. cbv beta in Q'. etransitivity; [symmetry; exact Q'|].
    unfold rc_set_center. cbn [rc_o]. apply (C103_set_center _ _ 0). exists (arc_radius (rc_o (radii_data (ig_core g) p))). unfold radii_data. cbn [rc_o].
    unfold moved_circle, arc_transform, from_point_center_angle, arc_from_frame. destruct (as_euler_zyx _) as [[y q] r].
    unfold arc_radius, arc_curve. rewrite arc_new_shape. eauto. }
  unfold radii_data, rc_center in O1. cbn [rc_o rc_p] in O1. rewrite (profile_trf _ _ _ _ _ _ E) in O1.
  rewrite (pc_center _ _ _ _ _ (placed_moved (ig_core g) z _ (arc_center (pr_ro p)) SO SS B)) in O1.
  assert (N2 : 0 < num_teeth (k_tooth (ig_core g)) / 2) by lra.
  rewrite (pc_center _ _ _ _ _ (placed_moved (ig_core g) z _ ORIGIN SO SS N2)) in O1.
  assert (FL : face_level (k_cone (ig_core g)) (k_rp (ig_core g)) (k_ho (ig_core g)) <> 0) by (rewrite C102_agree by lra; exact NC).
  assert (EL : exists l, ig_face_location sv fs ts g z = Ok l) by (unfold ig_face_location, ig_circles; rewrite E; cbn [bind]; eauto). destruct EL as (l & EL).
  destruct (C102_face_position sv fs ts g z p l E SO SS HC ltac:(lra) ltac:(intros; lra) EL) as (LP & LN). cbv zeta in LP, LN.
  rewrite A in O1. rewrite LP, O1 in LN.
  destruct (C102_center g z ORIGIN SO) as (C0 & _). rewrite <- C0 in LN. 
  replace (loc_point (ig_center_location g z) _) with (loc_pos (ig_center_location g z)) in LN.
  2:{ unfold loc_point. generalize (loc_rot (ig_center_location g z)), (loc_pos (ig_center_location g z)), (g_scale (k_trf (ig_core g)) * g_scale (k_slice (ig_core g) z)). clear. intros. vec_ring. }
  rewrite vsub_diag, norm_ORIGIN in LN. destruct SO as [S1 _].
  assert (0 < g_scale (k_trf (ig_core g)) * g_scale (k_slice (ig_core g) z)) by (apply Rmult_lt_0_compat; assumption).
  pose proof (Rabs_pos_lt _ FL). assert (0 < g_scale (k_trf (ig_core g)) * g_scale (k_slice (ig_core g) z) * Rabs (face_level (k_cone (ig_core g)) (k_rp (ig_core g)) (k_ho (ig_core g)))) by (apply Rmult_lt_0_compat; assumption).
  lra.
Qed.

(** ** C104: the base circle *)
Theorem C104_circle g w : sound (ig_core g) -> let z := k_p2z (ig_core g) w in 0 < g_scale (k_slice (ig_core g) z) ->
  0 < k_rp (ig_core g) * cos (k_alpha (ig_core g)) ->
  (k_cone (ig_core g) = 0 -> exists c, ig_base_circle g w = Ok c /\
     placed_circle c (k_trf (ig_core g)) (k_slice (ig_core g) z) (k_rp (ig_core g) * cos (k_alpha (ig_core g))) ORIGIN /\
     arc_radius c = ig_base_circle_radius g z) /\
  (k_cone (ig_core g) <> 0 -> ig_base_circle g w = Err AttributeError /\ forall s2, ig_angle_base_res g s2 = Err ValueError).
Proof.
  intros SO z SS RB. unfold ig_base_circle, ig_angle_base_res. split; intros HC; destruct (Req_EM_T _ 0); try contradiction; [|auto].
  eexists. split; [reflexivity|]. fold z. pose proof (placed_moved (ig_core g) z _ ORIGIN SO SS RB) as PL. split; [exact PL|].
  unfold base_radius_of. rewrite (pc_radius _ _ _ _ _ PL). unfold ig_base_circle_radius, base_radius_of.
  destruct (C102_center g z (smul (k_rp (ig_core g) * cos (k_alpha (ig_core g))) RIGHT) SO) as (A & _).
  destruct (C102_center g z ORIGIN SO) as (A0 & _). rewrite !slice_comp, <- A, <- A0.
  assert (OR : orthogonal (loc_rot (ig_center_location g z))).
  { unfold ig_center_location, transform2Location. destruct (as_euler_zyx _) as [[a b] c]. apply rotation_euler. }
  replace (vsub _ _) with (mapp (loc_rot (ig_center_location g z)) (smul (g_scale (k_trf (ig_core g)) * g_scale (k_slice (ig_core g) z)) (smul (k_rp (ig_core g) * cos (k_alpha (ig_core g))) RIGHT))).
  2:{ unfold loc_point. generalize (loc_rot (ig_center_location g z)), (loc_pos (ig_center_location g z)), (g_scale (k_trf (ig_core g)) * g_scale (k_slice (ig_core g) z)),
     (k_rp (ig_core g) * cos (k_alpha (ig_core g))). clear. intros. vec_ring. }
  rewrite orthogonal_norm, !norm_smul by exact OR. destruct SO as [S1 _].
  rewrite !Rabs_right by (apply Rle_ge, Rlt_le; try exact RB; apply Rmult_lt_0_compat; assumption).
  replace (norm RIGHT) with 1; [ring|]. unfold norm, dot, RIGHT. cbn [vx vy vz]. replace (1 * 1 + 0 * 0 + 0 * 0) with 1 by ring. symmetry. apply sqrt_1.
Qed.
(** The involute part of the tooth of a spur gear starts on that circle, at the reported base angle. *)
Theorem C104_start ts g n z : plain_spur g n -> ip_crown (ig_in g) = 0 -> 0 < ip_alpha (ig_in g) -> inv (ip_alpha (ig_in g)) <= PI ->
  let rp := IZR n / 2 in solved ts rp (ip_alpha (ig_in g)) -> top_found ts rp (ip_alpha (ig_in g)) (ig_pia g z) ->
  exists tooth c0 c1 a, ig_tooth ts g z = Ok tooth /\ leaves tooth = [c0; c1] /\
    ig_angle_base_res g (snd (fst (ts_meet ts EQUALITY (Prim (involute_curve0 rp (ip_alpha (ig_in g)))) (pitch_circle rp) (/ 2) 0))) = Ok a /\
    c_eval c1 0 = circle_pt (rp * cos (ip_alpha (ig_in g))) a.
Proof.
  intros H CW AP IP rp S T. pose proof (spur_core g n z H) as K. cbv zeta in K. destruct K as (E1 & E2 & E3 & E4 & E5 & E6 & E7 & E8 & SO & _).
  pose proof (ps_cyl _ _ H) as CY. assert (N : 0 < IZR n) by (apply IZR_lt, (cy_n _ _ CY)). pose proof (cy_alpha _ _ CY) as AL.
  destruct (tooth_rising ts rp (ip_alpha (ig_in g)) (ig_pia g z) ltac:(unfold rp; lra) ltac:(lra) IP S T) as (RN & W & c0 & c1 & L & E0 & D0 & D1 & F0 & C1 & D2 & F1).
  exists (plane_involute_tooth ts rp (ip_alpha (ig_in g)) (ig_pia g z)), c0, c1. eexists. split; [apply spur_tooth, H|]. split; [exact L|].
  split; [unfold ig_angle_base_res; rewrite E5; destruct (Req_EM_T 0 0); [reflexivity|contradiction]|].
  unfold ig_angle_base. rewrite E1, E2. fold rp. rewrite C42_tooth_base_angle; [|unfold rp; lra|lra|exact IP|exact S].
  pose proof (rn_leaves _ _ RN) as RL. rewrite L in RL. pose proof (Forall_inv (Forall_inv_tail RL)) as R1.
  rewrite fresh_start by (apply (ri_fresh _ _ R1) || apply (ri_ndiv _ _ R1)). rewrite D2, F1, C23_start. f_equal. do 2 f_equal.
  unfold ig_pia, crowning. rewrite CW. unfold Rdiv. ring.
Qed.
Example C104_example : exists c, ig_base_circle (ig_new (ex_param (2 * sqrt 6 - 4) 0)) 0 = Ok c /\ arc_radius c = 4 * sqrt 3.
Proof.
  destruct ex_searched as (_ & _ & PL & EI & _). pose proof PI_RGT_0.
  assert (C : cos (PI / 6) = sqrt 3 / 2) by apply cos_PI6. assert (S3 : 0 < sqrt 3) by (apply sqrt_lt_R0; lra).
  set (g := ig_new (ex_param (2 * sqrt 6 - 4) 0)) in *.
  pose proof (spur_core _ 8 (k_p2z (ig_core g) 0) PL) as K. cbv zeta in K. destruct K as (E1 & E2 & _ & _ & E5 & E6 & E7 & _ & SO & _).
  destruct (proj1 (C104_circle g 0 SO ltac:(cbv zeta; rewrite E6; lra) ltac:(rewrite E1, E2, EI; cbn [ex_param ip_alpha]; rewrite C; lra)) E5) as (c & EC & PC & _).
  exists c. split; [exact EC|]. rewrite (pc_radius _ _ _ _ _ PC), E1, E2, E6, E7, EI. cbn [ex_param ip_alpha ip_module]. rewrite C. lra.
Qed.

(** ** C101: the cone angles *)
(** An angle measured from the axis, and the acute angle with the same sine. *)
Definition folded (a : R) : R := if Rle_dec a (PI / 2) then a else PI - a.
Lemma asin_folded a : 0 <= a <= PI -> asin (sin a) = folded a.
Proof.
  intros H. unfold folded. destruct (Rle_dec a (PI / 2)) as [L|L]; [apply asin_sin; lra|].
  rewrite <- (sin_PI_x a). apply asin_sin. lra.
Qed.
Theorem C101_angles sv fs ts g z rc t ao ad aa : flank_of sv fs ts g z rc t -> sound (ig_core g) -> 0 < g_scale (k_slice (ig_core g) z) ->
  - PI < k_cone (ig_core g) < PI -> k_cone (ig_core g) <> 0 -> 0 < k_rp (ig_core g) -> num_teeth (k_tooth (ig_core g)) = 2 * k_rp (ig_core g) ->
  0 < arc_radius (rc_a rc) -> 0 < arc_radius (rc_d rc) -> / 10000000000 < tip_gap t -> / 10000000000 < root_gap t (2 * PI / ip_teeth (ig_in g)) ->
  let RR := c_R (polar_cone (k_cone (ig_core g)) (k_rp (ig_core g))) in
  axis_dist (n_point t 1) = RR * sin aa -> axis_dist (n_point t 0) = RR * sin ad -> arc_radius (rc_o rc) = RR * sin ao ->
  0 <= aa <= PI -> 0 <= ad <= PI -> 0 < ao < PI ->
  ig_cone_angles sv fs ts g z = Ok [folded ao; folded ad; Rabs (k_cone (ig_core g)) / 2; folded aa].
Proof.
  intros FL SO SS HC NC HR NT RA RD TG RG RR EA ED EO HA HD HO.
  pose proof (polar_R_pos _ _ (Rgt_not_eq _ _ HR) HC NC) as RP. pose proof (polar_R _ _ HC NC HR) as RS. fold RR in RP, RS.
  destruct (C100_radii sv fs ts g z rc t FL SO SS RA RD) as (c & EC & CA & CD). cbv zeta in CA, CD. rewrite EA in CA. rewrite ED in CD.
  destruct FL as [FO NO (tooth & f & ET & ER & EF & FR & TR)]. cbv zeta in *.
  assert (EI : exists p, ig_profile sv fs ts g z = Ok p).
  { unfold ig_circles in EC. destruct (ig_profile sv fs ts g z) as [p|]; [eauto|discriminate]. }
  destruct EI as (p & EI).
  destruct (profile_outside _ _ _ _ _ _ EI) as (_ & OR). cbv zeta in OR.
  assert (OR' : arc_radius (pr_ro p) = arc_radius (rc_o rc)).
  { rewrite OR, ER. clear. unfold reduced_circles. destruct (Rlt_dec _ _); reflexivity. }
  set (k := g_scale (k_trf (ig_core g)) * g_scale (k_slice (ig_core g) z)) in *.
  assert (KP : 0 < k) by (apply Rmult_lt_0_compat; [apply SO|exact SS]).
  assert (CO : arc_radius (rc_o c) = k * (RR * sin ao) /\ arc_radius (rc_p c) = k * (RR * sin (Rabs (k_cone (ig_core g) / 2)))).
  { unfold ig_circles in EC. rewrite EI in EC. cbn [bind] in EC. apply Ok_inj in EC. subst c. unfold radii_data. cbn [rc_o rc_p].
    rewrite (profile_trf _ _ _ _ _ _ EI). split.
    - rewrite <- EO, <- OR'. apply (placed_moved (ig_core g) z); try assumption. rewrite OR', EO. apply Rmult_lt_0_compat; [exact RP|apply sin_gt_0; lra].
    - rewrite RS. rewrite NT. replace (2 * k_rp (ig_core g) / 2) with (k_rp (ig_core g)) by field. apply (placed_moved (ig_core g) z); assumption. }
  destruct CO as (CO & CP). unfold ig_cone_angles. rewrite EC. cbn [bind].
  change (c_R (k_recipe_cone (ig_core g))) with RR.
  assert (SN : sin (gamma (k_recipe_cone (ig_core g))) <> 0).
  { unfold gamma. cbn [k_recipe_cone cone_angle]. intros Z. revert RS. unfold Rabs. destruct (Rcase_abs _); rewrite ?sin_neg, Z; lra. }
  assert (ST : forall x a, 0 <= a <= PI -> x = k * (RR * sin a) ->
    (if Req_EM_T (sin (gamma (k_recipe_cone (ig_core g)))) 0 then Ok 0 else np_arcsin (x / (RR * g_scale (k_slice (ig_core g) z) * g_scale (k_trf (ig_core g))))) = Ok (folded a)).
  { intros x a H ->. destruct (Req_EM_T _ 0); [contradiction|].
    replace (k * (RR * sin a) / (RR * g_scale (k_slice (ig_core g) z) * g_scale (k_trf (ig_core g)))) with (sin a).
    2:{ unfold k. field. pose proof (proj1 SO). repeat split; lra. }
    unfold np_arcsin. destruct (Rlt_dec 1 (Rabs (sin a))) as [G|G].
    - exfalso. pose proof (SIN_bound a). unfold Rabs in G. destruct (Rcase_abs _); lra.
    - f_equal. apply asin_folded, H. }
  cbn [res_map].
  clear - ST CO CD CP CA HO HD HA TG RG HC.
  rewrite (ST _ ao) by (lra || exact CO). cbn [bind].
  rewrite (ST _ ad); [|exact HD|]. 2:{ rewrite CD. clear - RG. destruct (Rlt_dec _ _); [reflexivity|contradiction]. } cbn [bind].
  rewrite (ST _ (Rabs (k_cone (ig_core g) / 2))); [| |exact CP].
  2:{ split; [apply Rabs_pos|]. apply Rlt_le, Rabs_def1; lra. } cbn [bind].
  rewrite (ST _ aa); [|exact HA|]. 2:{ rewrite CA. clear - TG. destruct (Rlt_dec _ _); [reflexivity|contradiction]. } cbn [bind].
  do 4 f_equal. unfold folded. assert (Rabs (k_cone (ig_core g) / 2) < PI / 2) by (apply Rabs_def1; lra).
  destruct (Rle_dec _ _); [|lra]. unfold Rdiv. rewrite Rabs_mult, (Rabs_right (/ 2)) by lra. reflexivity.
Qed.
Theorem C101_right_iff a : 0 <= a <= PI -> folded a = a <-> a <= PI / 2.
Proof. intros H. unfold folded. destruct (Rle_dec _ _); split; intros; lra. Qed.
