(** C121: gears with undercut relief: the trimmed flank and the part. *)
From Coq Require Import Nsatz Reals Ranalysis5 ZArith Lra Lia List Bool Arith Permutation.
From Verif Require Import Num Vec Coords CoordsProps Transform TransformProps Params Bezier BezierLem BezierProps Interp Curve CurveLem CurveProps
  ArcLem ArcProps Chain ChainLem ChainProps NurbsProps Gen GenProps GearMath GearLem MeshDistProps Tooth Wrapper Info InfoProps HelicalProps RefLines RefLinesProps Profile ProfileLem ProfileProps
  Build BuildProps Convert ConvertProps NurbConvProps Fillet FilletProps FlankProps ReduceProps Teeth RackConjProps UndercutProps RisingLem Report ReportProps MeshProps SpurProps RadiiProps Faces FacesProps Part PartProps
  ClimbLem DefaultProps.
Import ListNotations.
Open Scope R_scope.

(** ** Specification *)
(** Distance of the corner of the rack tooth from the middle of the gear's tooth, along the pitch line. *)
Definition corner_side (rp alpha pia hd : R) : R := rp * pia + hd * tan alpha.
(** Where the corner, at depth [hd] below the pitch line, is seen from the gear after the gear has turned by [- t] and the rack has moved
    along with the pitch circle. *)
Definition corner_path (rp alpha pia hd t : R) : vec :=
  let y := - corner_side rp alpha pia hd - rp * t in V ((rp - hd) * cos t - y * sin t) ((rp - hd) * sin t + y * cos t) 0.
(** The pose in which the corner is nearest to the axis. *)
Definition lowest (rp alpha pia hd : R) : R := - (corner_side rp alpha pia hd / rp).

(** A gear whose base circle lies outside its root circle, so that the corner of the rack relieves the flank. *)
Record relieved (rp alpha pia ha hd pitch : R) : Prop := {
  rl_rp : 0 < rp; rl_alpha : / 40 <= alpha < PI / 2; rl_inv : inv alpha <= PI; rl_pitch : 0 < pitch < PI;
  rl_root : 0 < rp - hd; rl_h : 0 < ha + hd;
  rl_base : rp - hd <= rp * cos alpha;
  rl_side : 0 < corner_side rp alpha pia hd < rp;
  rl_gap : corner_side rp alpha pia hd < rp * pitch / 2;
  rl_out : (rp - hd) * (rp - hd) + corner_side rp alpha pia hd * corner_side rp alpha pia hd < (rp + ha) * (rp + ha);
  rl_land : flank_angle rp alpha pia (rp + ha) < 0 }.

(** What the relief asks of the searches: the corner of the rack is compared with the middle of the gap, the path of the corner is not
    prolonged, and it is found to meet the involute, past its lowest point and inside the tip circle. *)
Definition relief_under (ts : tsolver) (rp alpha pia hd : R) : curve := undercut_curve ts rp 0 (V (rp - hd) (- corner_side rp alpha pia hd) 0).
Definition relief_meet (ts : tsolver) (rp alpha pia hd : R) : R * R :=
  match plane_involute_tooth ts rp alpha pia with
  | Prim _ => (0, 0)
  | Chain _ l => trim_solution ts (plane_involute_tooth ts rp alpha pia) (nth 1 (portions (length_array l)) 0) (relief_under ts rp alpha pia hd) 1
  end.
Record relief_found (ts : tsolver) (rp alpha pia ha hd pitch : R) : Prop := {
  rf_corner : let rack := plane_rack rp pia alpha (mkLim ha hd) in
    dot (vsub (c_eval rack (snd (ts_plane ts EQUALITY (Prim rack) UP (splat (- rp * pitch / 2)) 1))) (splat (- rp * pitch / 2))) UP = 0;
  rf_end : let c := plane_undercut rp (V (rp - hd) (- corner_side rp alpha pia hd) 0) in
    ts_root ts (fun s => dot (c_eval c s) (c_eval c s) - rp * 1 * (rp * 1)) 1 <= 1;
  rf_place : 0 <= fst (relief_meet ts rp alpha pia hd) < 1 /\ 0 < snd (relief_meet ts rp alpha pia hd) <= 1;
  rf_meet : meets (plane_involute_tooth ts rp alpha pia) (fst (relief_meet ts rp alpha pia hd)) (relief_under ts rp alpha pia hd) (snd (relief_meet ts rp alpha pia hd));
  rf_past : s2t (relief_under ts rp alpha pia hd) (snd (relief_meet ts rp alpha pia hd)) < lowest rp alpha pia hd;
  rf_between : rp * cos alpha * (rp * cos alpha) < rad2 (c_eval (relief_under ts rp alpha pia hd) (snd (relief_meet ts rp alpha pia hd))) < (rp + ha) * (rp + ha) }.

(** ** The path of the corner *)
Lemma path_fun rp alpha pia hd t : c_fun (plane_undercut rp (V (rp - hd) (- corner_side rp alpha pia hd) 0)) t = corner_path rp alpha pia hd t.
Proof.
  unfold plane_undercut. change (c_fun (new_curve (SGen ?f) true 0 (- (1)) NDIV) t) with (f t). unfold involute_circle, corner_path.
  set (q := corner_side rp alpha pia hd). cbv zeta. rewrite Rplus_0_r. apply vec_eq; unfold vsub, vadd, smul, mapp, rotz, RIGHT, UP, OUT; cbn; ring.
Qed.
Lemma path_rad rp alpha pia hd t : rad2 (corner_path rp alpha pia hd t) = (rp - hd) * (rp - hd) + (corner_side rp alpha pia hd + rp * t) * (corner_side rp alpha pia hd + rp * t).
Proof.
  unfold rad2, corner_path. set (q := corner_side rp alpha pia hd). cbn [vx vy]. pose proof (sc1 t) as S. revert S. generalize (sin t) (cos t). clearbody q. clear. intros. nsatz.
Qed.

Lemma sin_below x : 0 < x -> x < 1 -> 0 < sin x < x.
Proof. intros A B. split; [apply sin_gt_0; [exact A|pose proof PI_3; lra]|apply sin_lt_x, A]. Qed.

(** Two poses less than a twentieth apart put the corner in two places. *)
Lemma path_apart rp alpha pia hd t t' : 0 < rp -> / 40 <= alpha < PI / 2 -> 0 < rp - hd <= rp * cos alpha -> t' < t -> t - t' <= / 20 ->
  corner_path rp alpha pia hd t <> corner_path rp alpha pia hd t'.
Proof.
  intros P A B L D E. set (q := corner_side rp alpha pia hd) in *. set (a := rp - hd) in *.
  pose proof (f_equal rad2 E) as ER. rewrite !path_rad in ER. fold q a in ER.
  set (y := - q - rp * t). set (y' := - q - rp * t').
  assert (Y : y' = - y).
  { assert (K : (y - y') * (y + y') = 0) by (unfold y, y'; lra). apply Rmult_integral in K. destruct K as [K|K]; [exfalso|lra].
    assert (0 < rp * (t - t')) by (apply Rmult_lt_0_compat; lra). unfold y, y' in K. lra. }
  set (d := (t - t') / 2). assert (DD : 0 < d <= / 40) by (unfold d; lra).
  assert (YD : y = - (rp * d)) by (unfold y, y', d in *; lra).
  assert (EX : (rp - hd) * cos t - y * sin t = (rp - hd) * cos t' - y' * sin t') by (pose proof (f_equal vx E) as K; exact K).
  assert (EY : (rp - hd) * sin t + y * cos t = (rp - hd) * sin t' + y' * cos t') by (pose proof (f_equal vy E) as K; exact K).
  fold a in EX, EY. assert (T2 : t = t' + 2 * d) by (unfold d; lra).
  assert (K : a * cos (2 * d) - y * sin (2 * d) = a).
  { rewrite T2 in EX, EY. rewrite cos_plus, sin_plus in EX, EY. rewrite Y in EX, EY. pose proof (sc1 t') as S. revert EX EY S. 
    generalize (sin t') (cos t') (sin (2 * d)) (cos (2 * d)). clearbody a y. clear. intros s c s2 c2 EX EY S. nsatz. }
  rewrite cos_2a, sin_2a, YD in K. pose proof (sc1 d) as S1.
  destruct (sin_below d ltac:(lra) ltac:(lra)) as (S0 & SD).
  assert (K2 : sin d * (a * sin d - rp * d * cos d) = 0).
  { replace (a * (cos d * cos d - sin d * sin d)) with (a * (1 - 2 * (sin d * sin d))) in K by (rewrite <- S1; ring). lra. }
  apply Rmult_integral in K2. destruct K2 as [K2|K2]; [lra|].
  pose proof PI_3. assert (CC : cos alpha <= cos d). { destruct (Req_dec alpha d) as [->|NE]; [lra|]. left. apply cos_decreasing_1; lra. }
  assert (X1 : a * sin d < a * d) by (apply Rmult_lt_compat_l; lra).
  assert (X2 : a * d <= rp * cos alpha * d) by (apply Rmult_le_compat_r; lra).
  assert (X3 : rp * cos alpha <= rp * cos d) by (apply Rmult_le_compat_l; lra).
  assert (X4 : rp * cos alpha * d <= rp * cos d * d) by (apply Rmult_le_compat_r; lra). lra.
Qed.

(** Pieces of the path. *)
Record path_piece (rp alpha pia hd : R) (c : curve) : Prop := {
  pp_fresh : fresh c; pp_ndiv : c_ndiv c = NDIV; pp_act : c_act c = true;
  pp_shape : c_shape c = c_shape (plane_undercut rp (V (rp - hd) (- corner_side rp alpha pia hd) 0));
  pp_dom : - (1) <= c_t1 c /\ c_t1 c < c_t0 c /\ c_t0 c <= 0 }.

Section Path.
  Variables rp alpha pia hd : R.
  Hypothesis P : 0 < rp.
  Hypothesis A : / 40 <= alpha < PI / 2.
  Hypothesis B : 0 < rp - hd <= rp * cos alpha.
  Let q := corner_side rp alpha pia hd.
  Let path := corner_path rp alpha pia hd.
  Let piece := path_piece rp alpha pia hd.

  Lemma pp_fun c : piece c -> forall t, c_fun c t = path t.
  Proof. intros H t. unfold c_fun. rewrite (pp_shape _ _ _ _ _ H). apply path_fun. Qed.
  Lemma pp_gen c : piece c -> exists f, c_shape c = SGen f /\ forall t, f t = path t.
  Proof.
    intros H. eexists. split; [rewrite (pp_shape _ _ _ _ _ H); reflexivity|]. intros t. rewrite <- (pp_fun c H). unfold c_fun. rewrite (pp_shape _ _ _ _ _ H). reflexivity.
  Qed.
  Lemma pp_n2 c : piece c -> (2 <= c_ndiv c)%nat.
  Proof. intros H. rewrite (pp_ndiv _ _ _ _ _ H). apply NDIV_2. Qed.
  Lemma pp_table c : piece c -> incr (c_ss c) /\ 0 < c_length c.
  Proof.
    intros H. destruct (pp_gen c H) as (f & SH & F). destruct (pp_dom _ _ _ _ _ H) as (D1 & D2 & D3).
    apply (back_table c f); try assumption.
    - apply (pp_fresh _ _ _ _ _ H).
    - apply pp_n2, H.
    - apply (pp_act _ _ _ _ _ H).
    - intros t t' X Y Z W. rewrite !F. apply path_apart; try assumption. rewrite W, (pp_ndiv _ _ _ _ _ H). unfold NDIV.
      replace (INR (21 - 1)) with 20 by (cbn; lra). lra.
  Qed.
  Lemma pp_s2t c u : piece c -> 0 <= u <= 1 -> c_t1 c <= s2t c u <= c_t0 c /\ (0 < u -> s2t c u < c_t0 c) /\ (u < 1 -> c_t1 c < s2t c u).
  Proof.
    intros H. apply back_dom; [apply (pp_fresh _ _ _ _ _ H)|apply pp_n2, H|apply (pp_table c H)|apply (pp_dom _ _ _ _ _ H)].
  Qed.
  Lemma pp_end c u : piece c -> 0 < u <= 1 -> piece (set_end_on c u) /\ c_t1 (set_end_on c u) = s2t c u /\ c_t0 (set_end_on c u) = c_t0 c.
  Proof.
    intros H U. destruct (pp_s2t c u H ltac:(lra)) as (D & D' & _). specialize (D' ltac:(lra)). destruct (pp_dom _ _ _ _ _ H) as (D1 & D2 & D3).
    unfold set_end_on. rewrite update_t0, update_t1. split; [|split; reflexivity]. split.
    - apply update_fresh.
    - rewrite update_ndiv. apply (pp_ndiv _ _ _ _ _ H).
    - rewrite update_act. apply (pp_act _ _ _ _ _ H).
    - rewrite update_shape. apply (pp_shape _ _ _ _ _ H).
    - rewrite update_t0, update_t1. cbn [with_domain c_t0 c_t1]. lra.
  Qed.
  Lemma pp_start c u : piece c -> 0 <= u < 1 -> piece (set_start_on c u) /\ c_t0 (set_start_on c u) = s2t c u /\ c_t1 (set_start_on c u) = c_t1 c.
  Proof.
    intros H U. destruct (pp_s2t c u H ltac:(lra)) as (D & _ & D'). specialize (D' ltac:(lra)). destruct (pp_dom _ _ _ _ _ H) as (D1 & D2 & D3).
    unfold set_start_on. rewrite update_t0, update_t1. split; [|split; reflexivity]. split.
    - apply update_fresh.
    - rewrite update_ndiv. apply (pp_ndiv _ _ _ _ _ H).
    - rewrite update_act. apply (pp_act _ _ _ _ _ H).
    - rewrite update_shape. apply (pp_shape _ _ _ _ _ H).
    - rewrite update_t0, update_t1. cbn [with_domain c_t0 c_t1]. lra.
  Qed.

  (** The distance from the axis falls up to the lowest point and rises from there. *)
  Lemma path_low_iff t : rad2 (path t) = (rp - hd) * (rp - hd) <-> t = lowest rp alpha pia hd.
  Proof.
    unfold path. rewrite path_rad. fold q. unfold lowest. fold q. split.
    - intros E. assert (K : (q + rp * t) * (q + rp * t) = 0) by lra. apply Rmult_integral in K.
      apply Rmult_eq_reg_l with rp; [|lra]. replace (rp * - (q / rp)) with (- q) by (field; lra). lra.
    - intros ->. replace (q + rp * - (q / rp)) with 0 by (field; lra). ring.
  Qed.
  Lemma path_rising t t' : t' < t -> t <= lowest rp alpha pia hd -> rad2 (path t) < rad2 (path t').
  Proof.
    intros L LO. unfold path. rewrite !path_rad. fold q. unfold lowest in LO. fold q in LO.
    assert (E : rp * (q / rp) = q) by (field; lra).
    assert (X1 : q + rp * t <= 0). { assert (rp * t <= rp * - (q / rp)) by (apply Rmult_le_compat_l; lra). lra. }
    assert (X2 : rp * t' < rp * t) by (apply Rmult_lt_compat_l; lra).
    assert (0 <= - (q + rp * t) < - (q + rp * t')) by lra.
    assert (- (q + rp * t) * - (q + rp * t) < - (q + rp * t') * - (q + rp * t')) by (apply Rmult_le_0_lt_compat; lra). lra.
  Qed.
  Lemma pp_climbing c : piece c -> c_t0 c <= lowest rp alpha pia hd -> climbing rad2 c.
  Proof.
    intros H L. destruct (pp_gen c H) as (f & SH & F). apply (back_climbing rad2 c f); try assumption.
    - apply (pp_fresh _ _ _ _ _ H).
    - apply pp_n2, H.
    - apply (pp_act _ _ _ _ _ H).
    - apply (pp_dom _ _ _ _ _ H).
    - intros t t' X Y Z. rewrite !F. apply path_rising; lra.
  Qed.
  Lemma lowest_point : path (lowest rp alpha pia hd) = circle_pt (rp - hd) (lowest rp alpha pia hd).
  Proof.
    unfold path, corner_path, circle_pt. fold q. replace (- q - rp * lowest rp alpha pia hd) with 0 by (unfold lowest; fold q; field; lra).
    apply vec_eq; cbn [vx vy vz]; ring.
  Qed.
  (** Below the pitch line all of the path lies on one side of the middle of the tooth. *)
  Lemma path_below t : - (1) <= t <= 0 -> hd < q -> vy (path t) < 0.
  Proof.
    intros T H. unfold path, corner_path. fold q. cbn [vy]. set (s := - t). replace t with (- s) by (unfold s; ring). rewrite sin_neg, cos_neg.
    assert (S : 0 <= s <= 1) by (unfold s; lra). clearbody s. clear T t. pose proof PI_3. assert (C : 0 < cos s) by (apply cos_gt_0; lra).
    destruct (Req_dec s 0) as [->|N].
    - rewrite sin_0, cos_0. assert (0 < hd); [|lra]. destruct (Rlt_dec 0 hd) as [G|G]; [exact G|exfalso].
      pose proof (COS_bound alpha) as CB. assert (rp * cos alpha <= rp * 1) by (apply Rmult_le_compat_l; lra).
      assert (cos alpha < 1). { rewrite <- cos_0. apply cos_decreasing_1; lra. } assert (rp * cos alpha < rp * 1) by (apply Rmult_lt_compat_l; lra). lra.
    - assert (TS : s < tan s) by (pose proof (inv_strict 0 s ltac:(lra) ltac:(lra) ltac:(lra)) as K; rewrite inv_0 in K; unfold inv in K; lra). assert (TS2 : s * cos s < sin s). { unfold tan in TS. apply (Rmult_lt_compat_r (cos s)) in TS; [|exact C]. unfold Rdiv in TS. rewrite Rmult_assoc, Rinv_l in TS by lra. lra. }
      assert (X : (rp - hd) * (s * cos s) < (rp - hd) * sin s) by (apply Rmult_lt_compat_l; lra).
      assert (HD0 : 0 < hd). { destruct (Rlt_dec 0 hd) as [G|G]; [exact G|exfalso].
        assert (cos alpha < 1). { rewrite <- cos_0. apply cos_decreasing_1; lra. } assert (rp * cos alpha < rp * 1) by (apply Rmult_lt_compat_l; lra). lra. }
      assert (hd * s <= hd * 1) by (apply Rmult_le_compat_l; lra).
      assert (Y : 0 < (q - hd * s) * cos s) by (apply Rmult_lt_0_compat; lra). lra.
  Qed.
End Path.

(** ** The relieved tooth *)
Lemma rl_al rp alpha pia ha hd pitch : relieved rp alpha pia ha hd pitch -> 0 < alpha < PI / 2 /\ 0 < cos alpha /\ 0 < rp * cos alpha /\ 0 < tan alpha.
Proof.
  intros H. pose proof (rl_alpha _ _ _ _ _ _ H) as A. assert (0 < / 40) by lra. assert (C : 0 < cos alpha) by (apply cos_gt_0; lra).
  split; [lra|]. split; [exact C|]. split; [apply Rmult_lt_0_compat; [apply (rl_rp _ _ _ _ _ _ H)|exact C]|]. apply tan_gt_0; lra.
Qed.

Lemma corner_is ts rp alpha pia ha hd pitch : relieved rp alpha pia ha hd pitch -> relief_found ts rp alpha pia ha hd pitch ->
  plane_ref_point ts (plane_rack rp pia alpha (mkLim ha hd)) rp pitch = V (rp - hd) (- corner_side rp alpha pia hd) 0.
Proof.
  intros RL RF. destruct (rl_al _ _ _ _ _ _ RL) as (A & C & B & T). pose proof (rl_rp _ _ _ _ _ _ RL) as P. pose proof (rl_h _ _ _ _ _ _ RL) as H.
  assert (EV : forall u, c_eval (plane_rack rp pia alpha (mkLim ha hd)) u = V (rp - hd + u * (ha + hd)) (- corner_side rp alpha pia hd + u * (ha + hd) * tan alpha) 0).
  { intros u. rewrite rack_eval by lra. unfold along, corner_side, tan. cbn [lm_ha lm_hd]. apply vec_eq; vec_simpl; field; lra. }
  destruct (C93_corner ts rp pia alpha (mkLim ha hd) pitch P A H (rf_corner _ _ _ _ _ _ _ RF)) as (Y & u & U & E).
  rewrite E, !EV in Y. rewrite E, EV. cbn [vy] in Y. pose proof (rl_gap _ _ _ _ _ _ RL) as G.
  rewrite Rmax_left in Y by lra. assert (K : u * (ha + hd) * tan alpha = 0) by lra.
  apply Rmult_integral in K. destruct K as [K|K]; [|lra]. rewrite K. apply vec_eq; cbn [vx vy vz]; ring.
Qed.

Lemma under_piece ts rp alpha pia ha hd pitch : relieved rp alpha pia ha hd pitch -> relief_found ts rp alpha pia ha hd pitch ->
  path_piece rp alpha pia hd (relief_under ts rp alpha pia hd) /\ c_t0 (relief_under ts rp alpha pia hd) = 0.
Proof.
  intros RL RF. pose proof (rl_rp _ _ _ _ _ _ RL) as P. pose proof (rl_alpha _ _ _ _ _ _ RL) as A. pose proof (rl_root _ _ _ _ _ _ RL). pose proof (rl_base _ _ _ _ _ _ RL).
  assert (PU : path_piece rp alpha pia hd (plane_undercut rp (V (rp - hd) (- corner_side rp alpha pia hd) 0))).
  { split; [apply new_fresh|reflexivity|reflexivity|reflexivity|]. change (c_t0 (plane_undercut ?r ?p)) with 0. change (c_t1 (plane_undercut ?r ?p)) with (- (1)). lra. }
  unfold relief_under, undercut_curve. destruct (Req_EM_T 0 0) as [_|N]; [|contradiction]. pose proof (rf_end _ _ _ _ _ _ _ RF) as E. cbv zeta in E |- *.
  set (x := ts_root ts _ 1) in *. destruct (Rlt_dec 0 x) as [L|L].
  - destruct (pp_end rp alpha pia hd P A ltac:(lra) _ x PU ltac:(lra)) as (K & _ & K0). split; [exact K|]. rewrite K0. reflexivity.
  - split; [exact PU|reflexivity].
Qed.

Definition flank_place (rp alpha pia : R) (p : vec) : Prop := on_flank rp alpha pia p /\ (0 <= pia + inv alpha -> on_flank2 rp alpha pia p).

(** The tooth: the path of the corner up to the place where it meets the involute, then the involute. *)
Record relief_tooth (rp alpha pia ha hd : R) (tooth : node) (un : curve) (post : list curve) : Prop := {
  rt_act : n_active tooth = true; rt_tree : plain_tree tooth; rt_leaves : leaves tooth = un :: post;
  rt_piece : path_piece rp alpha pia hd un; rt_start : c_t0 un = 0; rt_past : c_t1 un < lowest rp alpha pia hd;
  rt_ne : post <> []; rt_post : List.Forall (rising rad2) post; rt_joined : joined (un :: post);
  rt_flank : forall c x, In c post -> c_t0 c <= x <= c_t1 c -> flank_place rp alpha pia (c_fun c x);
  rt_meet : rp * cos alpha * (rp * cos alpha) < rad2 (c_eval un 1) < (rp + ha) * (rp + ha);
  rt_top : forall c u, In c post -> 0 <= u <= 1 -> rad2 (c_eval un 1) <= rad2 (c_eval c u) }.

Theorem C121_tooth ts rp alpha pia ha hd pitch : relieved rp alpha pia ha hd pitch -> solved ts rp alpha -> top_found ts rp alpha pia ->
  relief_found ts rp alpha pia ha hd pitch ->
  exists tooth un post, involute_undercut_tooth ts rp alpha pia 0 pitch (Some (mkLim ha hd)) = Ok tooth /\ relief_tooth rp alpha pia ha hd tooth un post /\
    exists c, post = [c] /\ c_t1 c = c_t1 (plane_involute_flank ts rp alpha pia) /\ forall x, c_fun c x = c_fun (plane_involute_flank ts rp alpha pia) x.
Proof.
  intros RL S T RF. destruct (rl_al _ _ _ _ _ _ RL) as (A & C & B & TA). pose proof (rl_rp _ _ _ _ _ _ RL) as P. pose proof (rl_inv _ _ _ _ _ _ RL) as I.
  pose proof (rl_alpha _ _ _ _ _ _ RL) as A40. pose proof (rl_root _ _ _ _ _ _ RL) as RD. pose proof (rl_base _ _ _ _ _ _ RL) as BA.
  destruct (under_piece ts _ _ _ _ _ _ RL RF) as (PU & PU0). pose proof (corner_is ts _ _ _ _ _ _ RL RF) as CE.
  pose proof (rf_place _ _ _ _ _ _ _ RF) as (X0 & X1). pose proof (rf_meet _ _ _ _ _ _ _ RF) as MX. pose proof (rf_past _ _ _ _ _ _ _ RF) as PA.
  pose proof (rf_between _ _ _ _ _ _ _ RF) as BT.
  destruct (tooth_rising ts rp alpha pia P A I S T) as (RN & W & c0 & c1 & L & E0 & D0 & D1 & F0 & C1 & D2 & _).
  assert (WQ : within (flank_place rp alpha pia) (plane_involute_tooth ts rp alpha pia)).
  { unfold within in *. rewrite List.Forall_forall in *. intros c IC x X. split; [apply (W c IC x X)|]. intros PS.
    destruct (tooth_within2 ts rp alpha pia P A I PS S T) as (_ & W2). unfold within in W2. rewrite List.Forall_forall in W2. apply (W2 c IC x X). }
  unfold involute_undercut_tooth. unfold involute_base, involute_tooth_curve, involute_rack. destruct (Req_EM_T 0 0) as [_|N]; [|contradiction].
  cbn [lm_hd]. destruct (Rlt_dec (rp * cos alpha) (rp - hd)); [lra|]. cbv zeta. rewrite CE. fold (relief_under ts rp alpha pia hd).
  pose proof (involute_tooth_flat ts rp alpha pia) as FL. unfold relief_meet in *.
  destruct (plane_involute_tooth ts rp alpha pia) as [c|fl l] eqn:ET; [destruct FL as (cs & K & _); discriminate|].
  unfold trim_undercut. cbv zeta. set (x := trim_solution ts (Chain fl l) (nth 1 (portions (length_array l)) 0) (relief_under ts rp alpha pia hd) 1) in *.
  set (un0 := relief_under ts rp alpha pia hd) in *.
  assert (PX : n_point (Chain fl l) (fst x) = c_eval un0 (snd x)) by (unfold n_point, meets in *; rewrite MX; reflexivity).
  assert (NJ : forall k, In k (leaves (Chain fl l)) -> n_point (Chain fl l) (fst x) <> c_eval k 1).
  { intros k IK E. destruct (leaves_ends (Chain fl l) dummy_curve (rn_act _ _ RN) (rising_positive rad2 _ (rn_leaves _ _ RN))) as (_ & E1).
    rewrite L in IK, E1. cbn [last] in E1. destruct IK as [<-|[<-|[]]].
    - rewrite PX, E0 in E. rewrite E in BT. unfold flank_point in BT. rewrite rad2_circle in BT. lra.
    - rewrite <- E1 in E. pose proof (rn_point rad2 _ (fst x) 1 RN ltac:(lra) ltac:(lra) ltac:(lra)) as Q. rewrite E in Q. lra. }
  destruct (rn_start rad2 _ (Chain fl l) (fst x) RN WQ X0 NJ) as (tooth' & ES & RT & WT & TS & TE).
  rewrite ES. cbn [bind]. destruct (pp_end rp alpha pia hd P A40 ltac:(lra) un0 (snd x) PU X1) as (PE & PE1 & PE0). set (un := set_end_on un0 (snd x)) in *.
  destruct (C29_set_end_on un0 (snd x) (pp_fresh _ _ _ _ _ PU) (pp_n2 _ _ _ _ _ PU)) as (U1 & U0). fold un in U1, U0.
  set (tooth := Chain true [Prim un; tooth']).
  assert (LV : leaves tooth = un :: leaves tooth').
  { change (leaves tooth) with (leaves (Prim un) ++ leaves tooth' ++ []). rewrite app_nil_r. cbn [leaves]. rewrite (pp_act _ _ _ _ _ PE). reflexivity. }
  assert (AC : n_active tooth = true) by (cbn; rewrite (pp_act _ _ _ _ _ PE); reflexivity).
  assert (FR : List.Forall fresh (leaves tooth)) by (rewrite LV; constructor; [apply (pp_fresh _ _ _ _ _ PE)|apply (rn_fresh rad2), RT]).
  assert (NE : leaves tooth' <> []) by apply active_leaves, (rn_act _ _ RT).
  destruct (leaves_ends tooth' dummy_curve (rn_act _ _ RT) (rising_positive rad2 _ (rn_leaves _ _ RT))) as (H0 & _).
  assert (J1 : c_eval un 1 = c_eval (List.hd dummy_curve (leaves tooth')) 0) by congruence.
  exists tooth, un, (leaves tooth'). split; [unfold new_chain; rewrite update_id by assumption; reflexivity|]. split.
  2:{ assert (POSL : List.Forall (fun c => 0 < c_length c) (leaves (Chain fl l))) by apply (rising_positive rad2), (rn_leaves _ _ RN).
      pose proof (rn_act _ _ RN) as ACN.
      destruct (set_start_spec (Chain fl l) ACN (positive_wf _ ACN POSL) (rn_fresh rad2 _ RN) false (fst x)) as (pre & c & post & w & t & L2 & E2 & LT & EV2 & PL2 & PA2 & PB2).
      rewrite ES in E2. apply Ok_inj in E2. subst t. rewrite (leaves_wf (Chain fl l) ACN POSL (fst x)) in EV2. apply Ok_inj in EV2.
      assert (POS3 := POSL). rewrite L2 in POS3. pose proof (n_length_total (Chain fl l) ACN) as NL2. rewrite L2 in NL2.
      assert (CL2 : 0 < c_length c) by (apply Forall_app in POS3; destruct POS3 as [_ K]; inversion K; assumption).
      assert (TP2 : 0 < total (pre ++ c :: post)) by (apply positive_total; split; [destruct pre; discriminate|exact POS3]).
      destruct (cut_place pre c post w (fst x) (n_length (Chain fl l)) POS3 NL2 (PL2 ltac:(lra) ltac:(lra)) PA2 PB2) as (W0 & _ & W1 & _).
      specialize (W0 ltac:(lra)). specialize (W1 ltac:(lra)).
      pose proof (rn_leaves _ _ RN) as RLV. rewrite L in L2, RLV. inversion RLV as [|? ? R0 _]; subst. destruct pre as [|d0 [|d1 pre]].
      - exfalso. cbn in L2. injection L2 as <- _. pose proof (rising_dom rad2 c0 w R0 ltac:(lra)) as DD. rewrite D0, D1 in DD.
        rewrite PX in EV2. rewrite EV2 in BT. unfold c_eval in BT. rewrite F0, rad2_circle in BT. set (y := s2t c0 w) in *.
        assert (rp * cos alpha * (1 + y) <= rp * cos alpha * 2) by (apply Rmult_le_compat_l; lra).
        assert (0 <= rp * cos alpha * (1 + y)) by (apply Rmult_le_pos; lra).
        assert (rp * cos alpha * (1 + y) / 2 * (rp * cos alpha * (1 + y) / 2) <= rp * cos alpha * (rp * cos alpha)) by (apply Rmult_le_compat; lra). lra.
      - cbn in L2. injection L2 as <- <- <-. exists (set_start_on (plane_involute_flank ts rp alpha pia) w). split; [exact LT|].
        unfold set_start_on. rewrite update_t1, update_fun. auto.
      - cbn in L2. injection L2 as _ _ L2. destruct pre; discriminate L2. }
  split; try assumption.
  - constructor. constructor; [constructor|constructor; [|constructor]].
    + destruct (pp_gen _ _ _ _ _ PE) as (f & SH & _). intros (ps & ws & K). rewrite K in SH. discriminate.
    + exact (plain_start _ (flat_tree _ FL) _ _ ES).
  - congruence.
  - rewrite PE1. exact PA.
  - apply (rn_leaves _ _ RT).
  - destruct (leaves tooth') as [|y r] eqn:LT; [contradiction|]. split; [exact J1|]. rewrite <- LT. apply (rn_joined _ _ RT).
  - intros c u IC U. unfold within in WT. rewrite List.Forall_forall in WT. apply (WT c IC u U).
  - rewrite U1. exact BT.
  - intros c u IC U. rewrite J1. apply climb_low; try assumption; [|apply (rn_joined _ _ RT)].
    pose proof (rn_leaves _ _ RT) as RLL. rewrite List.Forall_forall in *. intros k IK. apply rising_climbing, RLL, IK.
Qed.

(** ** The trimmed flank *)
Lemma rl_angle rp alpha pia ha hd pitch r : relieved rp alpha pia ha hd pitch -> 0 < r -> - (pitch / 2) < flank_angle rp alpha pia r.
Proof.
  intros RL R0. destruct (rl_al _ _ _ _ _ _ RL) as (A & C & B & TA). pose proof (rl_rp _ _ _ _ _ _ RL) as P. pose proof (rl_base _ _ _ _ _ _ RL) as BA.
  pose proof (rl_gap _ _ _ _ _ _ RL) as G. unfold corner_side in G.
  destruct (pressure_range rp alpha r P C R0) as (AA & _). unfold flank_angle. set (a := acos _) in *.
  pose proof (inv_mono 0 a ltac:(lra) ltac:(lra) ltac:(lra)) as M. rewrite inv_0 in M.
  assert (K : rp * (1 - cos alpha) * tan alpha <= hd * tan alpha) by (apply Rmult_le_compat_r; lra).
  assert (ET : cos alpha * tan alpha = sin alpha) by (unfold tan; field; lra).
  assert (SA : sin alpha < alpha) by (apply sin_lt_x; lra).
  assert (K2 : rp * (pia + tan alpha - sin alpha) < rp * (pitch / 2)).
  { replace (rp * (1 - cos alpha) * tan alpha) with (rp * (tan alpha - cos alpha * tan alpha)) in K by ring. rewrite ET in K. unfold Rdiv in *. lra. }
  apply Rmult_lt_reg_l in K2; [|exact P]. unfold inv at 2. lra.
Qed.

Lemma relief_flank sv rp alpha pia ha hd ho br pitch tooth un post : relieved rp alpha pia ha hd pitch -> relief_tooth rp alpha pia ha hd tooth un post ->
  let rc := generate_reference_circles rp ha hd ho 0 br in
  tip_found sv tooth (rc_a rc) pitch ->
  (forall n1, trim_tip sv tooth (rc_a rc) 0 pitch = Ok n1 -> root_found sv n1 (rc_d rc) pitch) ->
  exists t, trim_flank sv tooth rc 0 0 pitch = Ok t /\ flank_ok t /\ not_opposite t pitch /\ List.Forall fresh (leaves tooth) /\ plain_flank t /\
    n_point t 0 = circle_pt (rp - hd) (lowest rp alpha pia hd) /\ n_point t 1 = flank_point rp alpha pia (rp + ha) /\
    (forall s, 0 <= s <= 1 -> (exists x, c_t1 un <= x <= lowest rp alpha pia hd /\ n_point t s = corner_path rp alpha pia hd x) \/
       exists r, rp * cos alpha < r <= rp + ha /\ n_point t s = flank_point rp alpha pia r) /\
    (forall s u, 0 <= s -> s < u -> u <= 1 -> rad2 (n_point t s) < rad2 (n_point t u)) /\ (2 <= length (leaves t) <= 1 + length post)%nat.
Proof.
  intros RL RT rc (x0 & x1 & SX & X & MX) RF.
  destruct (rl_al _ _ _ _ _ _ RL) as (A & C & B & TA). pose proof (rl_rp _ _ _ _ _ _ RL) as P. pose proof (rl_pitch _ _ _ _ _ _ RL) as PI0.
  pose proof (rl_alpha _ _ _ _ _ _ RL) as A40. pose proof (rl_root _ _ _ _ _ _ RL) as RD. pose proof (rl_base _ _ _ _ _ _ RL) as BA.
  pose proof (rl_h _ _ _ _ _ _ RL) as HH. pose proof (rl_side _ _ _ _ _ _ RL) as SI. pose proof (rl_gap _ _ _ _ _ _ RL) as GA. pose proof (rl_out _ _ _ _ _ _ RL) as OU.
  pose proof (rl_land _ _ _ _ _ _ RL) as LAND. pose proof (rl_angle _ _ _ _ _ _ (rp + ha) RL ltac:(lra)) as LO.
  assert (PB : 0 < rp - hd <= rp * cos alpha) by lra.
  destruct RT as [AC TR LV PC ST PAST NE POST JJ FLK MEET TOP].
  set (q := corner_side rp alpha pia hd) in *. set (lw := lowest rp alpha pia hd) in *. set (path := corner_path rp alpha pia hd) in *.
  assert (LW : rp * lw = - q) by (unfold lw, lowest; fold q; field; lra).
  assert (LW0 : - (pitch / 2) < lw < 0).
  { split; apply Rmult_lt_reg_l with rp; lra. }
  destruct (C51_cylindrical rp ha hd ho br P ltac:(lra) ltac:(lra)) as (_ & (CA & _) & (CD & _) & _). fold rc in CA, CD.
  assert (UL : 0 < c_length un) by apply (pp_table rp alpha pia hd P A40 PB un PC).
  assert (POSL : List.Forall (fun c => 0 < c_length c) (leaves tooth)) by (rewrite LV; constructor; [exact UL|apply (rising_positive rad2), POST]).
  assert (US : usable tooth).
  { split; [exact AC|]. split; [apply positive_wf; assumption|]. rewrite LV. constructor; [split; [apply (pp_fresh _ _ _ _ _ PC)|apply (pp_n2 _ _ _ _ _ PC)]|].
    eapply Forall_impl; [|exact POST]. intros c HC. split; [apply (ri_fresh _ _ HC)|apply (ri_ndiv _ _ HC)]. }
  assert (FRL : List.Forall fresh (leaves tooth)) by apply usable_fresh, US.
  assert (JT : joined (leaves tooth)) by (rewrite LV; exact JJ).
  (* points of the path *)
  assert (UE : forall u, 0 <= u <= 1 -> c_eval un u = path (s2t un u) /\ c_t1 un <= s2t un u <= 0).
  { intros u U. split; [apply (pp_fun _ _ _ _ _ PC)|]. destruct (pp_s2t rp alpha pia hd P A40 PB un u PC U) as (K & _). lra. }
  assert (U1 : c_eval un 1 = path (c_t1 un)) by (rewrite fresh_end by (apply (pp_fresh _ _ _ _ _ PC) || apply (pp_n2 _ _ _ _ _ PC)); apply (pp_fun _ _ _ _ _ PC)).
  assert (UR : forall u, 0 <= u <= 1 -> rad2 (c_eval un u) < (rp + ha) * (rp + ha)).
  { intros u U. destruct (UE u U) as (-> & D). set (x := s2t un u) in *. destruct (Rle_dec lw x) as [G|G].
    - unfold path. rewrite path_rad. fold q. assert (0 <= q + rp * x <= q).
      { split; [assert (rp * lw <= rp * x) by (apply Rmult_le_compat_l; lra); lra|]. assert (rp * x <= rp * 0) by (apply Rmult_le_compat_l; lra). lra. }
      assert ((q + rp * x) * (q + rp * x) <= q * q) by (apply Rmult_le_compat; lra). lra.
    - destruct (Req_dec x (c_t1 un)) as [->|NX]; [rewrite <- U1; apply MEET|].
      pose proof (path_rising rp alpha pia hd P x (c_t1 un) ltac:(lra) ltac:(fold lw; lra)) as K. fold path in K. rewrite <- U1 in K. lra. }
  (* the tip *)
  assert (PX : n_point tooth x0 = c_eval (rc_a rc) x1) by (unfold n_point, meets in *; rewrite MX; reflexivity).
  assert (RX : rad2 (c_eval (rc_a rc) x1) = (rp + ha) * (rp + ha)).
  { rewrite CA. change (V _ _ _) with (circle_pt (rp + ha) (2 * PI * x1)). apply rad2_circle. }
  destruct (set_end_spec tooth AC (proj1 (proj2 US)) FRL false x0) as (pre & c & post' & u & m & L & E & LM & EV & PL & PA & PBB).
  destruct (end_cut tooth x0 dummy_curve US JT) as (m' & c' & u' & E' & JM & NM & PT & HD & FM & _). rewrite E in E'. apply Ok_inj in E'. subst m'.
  assert (POS2 := POSL). rewrite L in POS2. pose proof (n_length_total tooth AC) as NL. rewrite L in NL.
  assert (CL : 0 < c_length c) by (apply Forall_app in POS2; destruct POS2 as [_ K]; inversion K; assumption).
  assert (TP : 0 < total (pre ++ c :: post')) by (apply positive_total; split; [destruct pre; discriminate|exact POS2]).
  destruct (cut_place pre c post' u x0 (n_length tooth) POS2 NL (PL ltac:(lra) ltac:(lra)) PA PBB) as (_ & U0 & UU1 & _).
  specialize (U0 ltac:(lra)). specialize (UU1 ltac:(lra)). clear PL PA PBB NL TP.
  rewrite (leaves_wf tooth AC POSL x0) in EV, PT. apply Ok_inj in EV. apply Ok_inj in PT.
  assert (EC : c_eval c u = c_eval (rc_a rc) x1) by congruence.
  destruct pre as [|un' pre].
  { exfalso. rewrite LV in L. cbn in L. injection L as EU _. subst c. pose proof (UR u ltac:(lra)) as K. rewrite EC, RX in K. lra. }
  assert (EQ : un' = un /\ post = pre ++ c :: post') by (rewrite LV in L; cbn in L; injection L as K1 K2; auto). destruct EQ as (-> & EP).
  assert (HC : rising rad2 c) by (rewrite EP in POST; apply Forall_app in POST; destruct POST as [_ K]; inversion K; assumption).
  assert (HPRE : List.Forall (rising rad2) pre) by (rewrite EP in POST; apply Forall_app in POST; apply POST).
  assert (ICP : In c post) by (rewrite EP; apply in_or_app; right; left; reflexivity).
  assert (FP : forall k v, In k post -> 0 <= v <= 1 -> flank_place rp alpha pia (c_eval k v)).
  { intros k v IK V0. unfold c_eval. apply (FLK k); [exact IK|]. apply (rising_dom rad2); [|exact V0]. rewrite List.Forall_forall in POST. apply POST, IK. }
  assert (QX : c_eval c u = flank_point rp alpha pia (rp + ha)).
  { destruct (FP c u ICP ltac:(lra)) as ((r & Hr & Er) & _). rewrite <- EC in RX. rewrite Er in RX |- *. apply flank_point_radius in RX; [subst; reflexivity|lra|lra]. }
  set (last' := set_end_on c u) in *. set (post1 := pre ++ [last']) in *.
  assert (HL' : rising rad2 last') by (apply rising_end; [exact HC|lra]).
  assert (RP1 : List.Forall (rising rad2) post1) by (apply Forall_app; split; [exact HPRE|constructor; [exact HL'|constructor]]).
  assert (LM1 : leaves m = un :: post1) by exact LM. rewrite LM1 in JM.
  assert (P1NE : post1 <> []) by (unfold post1; destruct pre; discriminate).
  assert (YX : vy (n_point tooth x0) < 0).
  { rewrite PX, <- EC, QX. unfold flank_point, circle_pt. cbn [vy].
    assert (0 < sin (- flank_angle rp alpha pia (rp + ha))) by (apply sin_gt_0; lra). rewrite sin_neg in *.
    assert (0 < (rp + ha) * - sin (flank_angle rp alpha pia (rp + ha))) by (apply Rmult_lt_0_compat; lra). lra. }
  assert (TT : trim_tip sv tooth (rc_a rc) 0 pitch = Ok m).
  { unfold trim_tip. destruct (Rlt_dec 0 0); [lra|]. cbv zeta. rewrite SX. cbn [fst]. rewrite (leaves_wf tooth AC POSL x0). cbn [bind orb andb].
    unfold lt_b. destruct (Rlt_dec _ 0); [exact E|contradiction]. }
  assert (CL1 : List.Forall (climbing rad2) post1).
  { rewrite List.Forall_forall in *. intros k IK. apply rising_climbing, RP1, IK. }
  assert (J1 : c_eval un 1 = c_eval (List.hd dummy_curve post1) 0 /\ joined post1).
  { destruct post1 as [|y r]; [contradiction|]. exact JM. }
  destruct J1 as (J1 & J2).
  assert (LOW : forall k v, In k post1 -> 0 <= v <= 1 -> rad2 (c_eval un 1) <= rad2 (c_eval k v)).
  { intros k v IK V0. rewrite J1. apply climb_low; assumption. }
  (* the root *)
  destruct (RF m TT) as (y0 & y1 & SY & Y & MY).
  assert (ACM : n_active m = true) by (apply active_leaves; rewrite LM1; discriminate).
  assert (POSM : List.Forall (fun k => 0 < c_length k) (leaves m)) by (rewrite LM1; constructor; [exact UL|apply (rising_positive rad2), RP1]).
  assert (USM : usable m) by (split; [exact ACM|split; [apply positive_wf; assumption|exact FM]]).
  assert (PY : n_point m y0 = c_eval (rc_d rc) y1) by (unfold n_point, meets in *; rewrite MY; reflexivity).
  assert (RY : rad2 (c_eval (rc_d rc) y1) = (rp - hd) * (rp - hd)).
  { rewrite CD. change (V _ _ _) with (circle_pt (rp - hd) (2 * PI * y1)). apply rad2_circle. }
  destruct (set_start_spec m ACM (proj1 (proj2 USM)) (usable_fresh _ FM) false y0) as (pre2 & c2 & post2 & w & t & L2 & E2 & LT & EV2 & PL2 & PA2 & PB2).
  destruct (start_cut m y0 dummy_curve USM ltac:(rewrite LM1; exact JM)) as (t' & c2' & w' & E2' & JTT & NT & PT2 & HD2 & _). rewrite E2 in E2'. apply Ok_inj in E2'. subst t'.
  assert (POS3 := POSM). rewrite L2 in POS3. pose proof (n_length_total m ACM) as NL2. rewrite L2 in NL2.
  assert (CL2 : 0 < c_length c2) by (apply Forall_app in POS3; destruct POS3 as [_ K]; inversion K; assumption).
  assert (TP2 : 0 < total (pre2 ++ c2 :: post2)) by (apply positive_total; split; [destruct pre2; discriminate|exact POS3]).
  destruct (cut_place pre2 c2 post2 w y0 (n_length m) POS3 NL2 (PL2 ltac:(lra) ltac:(lra)) PA2 PB2) as (W0 & _ & W1 & _).
  specialize (W0 ltac:(lra)). specialize (W1 ltac:(lra)). clear PL2 PA2 PB2 NL2 TP2.
  rewrite (leaves_wf m ACM POSM y0) in EV2, PT2. apply Ok_inj in EV2. apply Ok_inj in PT2.
  assert (ER2 : rad2 (c_eval c2 w) = (rp - hd) * (rp - hd)) by congruence.
  assert (BB : (rp - hd) * (rp - hd) <= rp * cos alpha * (rp * cos alpha)) by (apply Rmult_le_compat; lra).
  destruct pre2 as [|z pre2].
  2:{ exfalso. rewrite LM1 in L2. cbn in L2. injection L2 as _ L2. assert (IK : In c2 post1) by (rewrite L2; apply in_or_app; right; left; reflexivity).
      pose proof (LOW c2 w IK ltac:(lra)) as K. lra. }
  assert (EQ2 : c2 = un /\ post2 = post1) by (rewrite LM1 in L2; cbn in L2; injection L2 as K1 K2; auto). destruct EQ2 as (-> & ->).
  destruct (UE w ltac:(lra)) as (EW & DW).
  assert (LWW : s2t un w = lw). { apply (path_low_iff rp alpha pia hd P). fold path. rewrite <- EW. exact ER2. }
  assert (W2 : w < 1). { destruct (Req_dec w 1) as [->|NW]; [exfalso; lra|lra]. }
  destruct (pp_start rp alpha pia hd P A40 PB un w PC ltac:(lra)) as (PS & PS0 & PS1). set (un2 := set_start_on un w) in *.
  assert (CN : climbing_node rad2 t).
  { split; [apply active_leaves, NT| |exact JTT]. rewrite LT. constructor; [|exact CL1]. apply (pp_climbing rp alpha pia hd P un2 PS). fold lw. lra. }
  assert (POST' : List.Forall (fun k => 0 < c_length k) (leaves t)) by (apply (climb_positive rad2), CN).
  destruct (leaves_ends t dummy_curve (cn_act _ _ CN) POST') as (N0 & N1).
  assert (P0 : n_point t 0 = circle_pt (rp - hd) lw).
  { rewrite <- PT2 in N0. rewrite N0, EV2, EW, LWW. apply (lowest_point rp alpha pia hd P). }
  assert (P1 : n_point t 1 = flank_point rp alpha pia (rp + ha)).
  { rewrite N1, LT. assert (K : last (un2 :: post1) dummy_curve = last') by (change (un2 :: post1) with ((un2 :: pre) ++ [last']); apply last_last).
    rewrite K. destruct (C29_set_end_on c u (ri_fresh _ _ HC) (ri_ndiv _ _ HC)) as (K1 & _). unfold last'. rewrite K1. exact QX. }
  exists t. split; [unfold trim_flank; rewrite TT; cbn [bind]|].
  { unfold trim_root. destruct (Rlt_dec 0 0); [lra|]. cbv zeta. rewrite SY. rewrite !(leaves_wf m ACM POSM). cbn [bind].
    destruct (sv_meet sv MINDISTANCE m (rc_d rc) 0 _) as [[ok2 b0] b1]. rewrite ?(leaves_wf m ACM POSM). cbn [bind orb andb].
    unfold lt_b. destruct (Rlt_dec _ _) as [LL|LL]; [exact E2|]. exfalso. apply LL.
    rewrite EV2, EW, LWW. unfold path. rewrite lowest_point by exact P. fold lw. unfold circle_pt. cbn [vx vy]. rewrite arctan2_polar; lra. }
  split; [apply (cn_flank_ok rad2), CN|]. split.
  { unfold not_opposite. rewrite P0, P1. unfold flank_point, circle_pt. cbn [vx vy]. split.
    - assert (0 < (rp + ha) * cos (flank_angle rp alpha pia (rp + ha))) by (apply Rmult_lt_0_compat; [lra|apply cos_gt_0; lra]). lra.
    - assert (0 < (rp - hd) * cos (lw + pitch / 2)) by (apply Rmult_lt_0_compat; [lra|apply cos_gt_0; lra]). rewrite cos_plus in *. lra. }
  split; [exact FRL|]. split; [apply plain_tree_flank; exact (plain_start _ (plain_end _ TR _ _ E) _ _ E2)|].
  split; [exact P0|]. split; [exact P1|]. split; [|split; [intros s v S1 S2 S3; apply (cn_point rad2 t s v CN S1 S2 S3)|rewrite LT, EP; unfold post1; cbn [length]; rewrite !app_length; cbn [length]; lia]].
  intros s S0. destruct (point_leaf t s (cn_act _ _ CN) POST' S0) as (k & v & IK & V0 & EK). rewrite EK. rewrite LT in IK. destruct IK as [<-|IK].
  - left. exists (s2t un2 v). destruct (pp_s2t rp alpha pia hd P A40 PB un2 v PS V0) as (D & _). split; [lra|]. apply (pp_fun _ _ _ _ _ PS).
  - right. pose proof (LOW k v IK V0) as K1.
    assert (KF : on_flank rp alpha pia (c_eval k v)).
    { unfold post1 in IK. apply in_app_or in IK. destruct IK as [IK|[<-|[]]].
      - apply FP; [rewrite EP; apply in_or_app; left; exact IK|exact V0].
      - unfold c_eval. pose proof (rising_dom rad2 last' v HL' V0) as D. unfold last', set_end_on in D |- *. rewrite update_t0, update_t1 in D. cbn [with_domain c_t0 c_t1] in D.
        pose proof (rising_dom rad2 c u HC ltac:(lra)) as D2. set (x := s2t _ v) in *. unfold c_fun. rewrite update_shape. cbn [with_domain c_shape].
        apply (FLK c x ICP). lra. }
    assert (K2 : rad2 (c_eval k v) <= (rp + ha) * (rp + ha)).
    { rewrite <- EK, <- (rad2_circle (rp + ha) (flank_angle rp alpha pia (rp + ha))). change (circle_pt (rp + ha) (flank_angle rp alpha pia (rp + ha))) with (flank_point rp alpha pia (rp + ha)).
      rewrite <- P1. destruct (Req_dec s 1) as [->|NS]; [lra|]. left. apply (cn_point rad2 t s 1 CN); lra. }
    destruct KF as (r & Hr & Er). exists r. split; [|exact Er]. rewrite Er in K1, K2. unfold flank_point in K1, K2. rewrite rad2_circle in K1, K2.
    split.
    + apply sq_lt; lra.
    + apply Rsqr_incr_0; unfold Rsqr; lra.
Qed.

Theorem C121_flank sv ts rp alpha pia ha hd ho br pitch : relieved rp alpha pia ha hd pitch -> solved ts rp alpha -> top_found ts rp alpha pia ->
  relief_found ts rp alpha pia ha hd pitch ->
  exists tooth, involute_undercut_tooth ts rp alpha pia 0 pitch (Some (mkLim ha hd)) = Ok tooth /\
    let rc := generate_reference_circles rp ha hd ho 0 br in
    (tip_found sv tooth (rc_a rc) pitch ->
     (forall n1, trim_tip sv tooth (rc_a rc) 0 pitch = Ok n1 -> root_found sv n1 (rc_d rc) pitch) ->
     exists t, trim_flank sv tooth rc 0 0 pitch = Ok t /\ flank_ok t /\ not_opposite t pitch /\ plain_flank t /\
       n_point t 0 = circle_pt (rp - hd) (lowest rp alpha pia hd) /\ n_point t 1 = flank_point rp alpha pia (rp + ha) /\
       (forall s, 0 <= s <= 1 -> (exists x, x <= lowest rp alpha pia hd /\ n_point t s = corner_path rp alpha pia hd x) \/
          exists r, rp * cos alpha < r <= rp + ha /\ n_point t s = flank_point rp alpha pia r) /\
       (forall s u, 0 <= s -> s < u -> u <= 1 -> rad2 (n_point t s) < rad2 (n_point t u)) /\ length (leaves t) = 2%nat).
Proof.
  intros RL S T RF. destruct (C121_tooth ts rp alpha pia ha hd pitch RL S T RF) as (tooth & un & post & E & RT & cf & EP & _). exists tooth. split; [exact E|].
  intros rc TF RF2. destruct (relief_flank sv rp alpha pia ha hd ho br pitch tooth un post RL RT TF RF2) as (t & A1 & A2 & A3 & _ & A4 & A5 & A6 & A7 & A8 & A9).
  exists t. repeat (split; [assumption|]). split; [|split; [exact A8|rewrite EP in A9; cbn [length] in A9; lia]]. intros s S0. destruct (A7 s S0) as [(x & X & K)|K]; [left; exists x; split; [lra|exact K]|right; exact K].
Qed.

(** ** Tip truncation *)
(** The circles stay as they are where the search finds no point in the symmetry plane of the tooth, or only points at least the truncation
    above the tip. *)
Lemma tip_kept fs tooth rp ha hd ho red : 0 < rp -> 0 < rp + ha -> 0 < rp - hd ->
  (forall r, crossing fs tooth 0 rp (rp - hd) r -> rp + ha + red <= r) ->
  reduced_circles fs tooth (generate_reference_circles rp ha hd ho 0 rp) red 0 rp = generate_reference_circles rp ha hd ho 0 rp.
Proof.
  intros P RA RD CR. destruct (Rlt_le_dec 0 red) as [R0|R0]; [|apply C90_off, R0].
  assert (HT : forall h, 0 < rp + h -> vx (polar_transform 0 rp (c_eval (ref_circle (ref_point 0 rp rp h)) 0)) = rp + h).
  { intros h H. destruct (ref_circle_at (rp + h) 0 ltac:(lra)) as (K & _). rewrite ref_point_cyl by exact P. rewrite K, radius_of.
    unfold rad2. cbn [vx vy]. rewrite Rmult_0_r, sin_0, cos_0. replace (_ + _) with ((rp + h) * (rp + h)) by ring. apply sqrt_square. lra. }
  destruct (C90_reduction fs tooth (rp + ha) (rp - hd) red 0 rp R0) as (_ & [E|(L & r & C & E)]).
  - unfold reduced_circles. destruct (Rlt_dec 0 red); [|contradiction]. unfold generate_reference_circles. cbn [rc_a rc_d rc_p rc_o].
    rewrite !HT by lra. replace (rp + - hd) with (rp - hd) by ring. rewrite E. f_equal. f_equal. rewrite ref_point_cyl by exact P.
    unfold inverse_polar_transform. destruct (Req_EM_T 0 0); [|contradiction]. unfold cylindrical_to_xyz. cbn [vx vy vz]. rewrite cos_0, sin_0.
    apply vec_eq; vec_simpl; ring.
  - exfalso. specialize (CR r C). lra.
Qed.

Lemma sharp_unique rp alpha pia rs q : 0 < rp -> 0 < alpha < PI / 2 -> 0 < pia + inv alpha < PI -> 0 < rs -> 0 < q -> flank_angle rp alpha pia rs = 0 ->
  flank_angle rp alpha pia q < PI -> vy (flank_point rp alpha pia q) = 0 -> q = rs.
Proof.
  intros P A PS RS Q0 E QP Y. assert (C : 0 < cos alpha) by (apply cos_gt_0; lra).
  unfold flank_point in Y. cbn [circle_pt vy] in Y. apply Rmult_integral in Y. destruct Y as [Y|Y]; [lra|].
  assert (LO : - PI < flank_angle rp alpha pia q).
  { destruct (pressure_range rp alpha q P C Q0) as (AA & _). unfold flank_angle. set (a := acos _) in *. pose proof (inv_mono 0 a ltac:(lra) ltac:(lra) ltac:(lra)) as M. rewrite inv_0 in M. lra. }
  assert (Z : flank_angle rp alpha pia q = 0).
  { destruct (Rtotal_order (flank_angle rp alpha pia q) 0) as [L|[L|L]]; [exfalso|exact L|exfalso].
    - pose proof (sin_gt_0 (- flank_angle rp alpha pia q) ltac:(lra) ltac:(lra)) as K. rewrite sin_neg in K. lra.
    - pose proof (sin_gt_0 (flank_angle rp alpha pia q) L QP). lra. }
  assert (BS : rp * cos alpha < rs). { destruct (Rlt_dec (rp * cos alpha) rs) as [G|G]; [exact G|exfalso]. rewrite flank_low in E by (assumption || lra). lra. }
  assert (BQ : rp * cos alpha < q). { destruct (Rlt_dec (rp * cos alpha) q) as [G|G]; [exact G|exfalso]. rewrite flank_low in Z by (assumption || lra). lra. }
  destruct (Rtotal_order q rs) as [L|[L|L]]; [exfalso|exact L|exfalso].
  - destruct (flank_angle_mono rp alpha pia q rs P C Q0 ltac:(lra)) as (_ & M). specialize (M L BS). lra.
  - destruct (flank_angle_mono rp alpha pia rs q P C RS ltac:(lra)) as (_ & M). specialize (M L BQ). lra.
Qed.

Lemma relief_crossing fs rp alpha pia ha hd pitch tooth un post rs r : relieved rp alpha pia ha hd pitch -> relief_tooth rp alpha pia ha hd tooth un post ->
  0 < pia + inv alpha < PI -> hd < corner_side rp alpha pia hd -> plane_sound fs tooth -> 0 < rs -> flank_angle rp alpha pia rs = 0 ->
  crossing fs tooth 0 rp (rp - hd) r -> r = rs.
Proof.
  intros RL RT PS HS SO RS E (g & x & _ & EX & ER & _). change (V 0 1 0) with UP in EX. destruct (SO g x EX) as (X & Y).
  destruct (rl_al _ _ _ _ _ _ RL) as (A & C & B & TA). pose proof (rl_rp _ _ _ _ _ _ RL) as P. pose proof (rl_alpha _ _ _ _ _ _ RL) as A40.
  assert (PB : 0 < rp - hd <= rp * cos alpha) by (split; [apply (rl_root _ _ _ _ _ _ RL)|apply (rl_base _ _ _ _ _ _ RL)]).
  destruct RT as [AC TR LV PC ST PAST NE POST JJ FLK MEET TOP].
  assert (UL : 0 < c_length un) by apply (pp_table rp alpha pia hd P A40 PB un PC).
  assert (POSL : List.Forall (fun c => 0 < c_length c) (leaves tooth)) by (rewrite LV; constructor; [exact UL|apply (rising_positive rad2), POST]).
  destruct (point_leaf tooth x AC POSL X) as (k & v & IK & V0 & EK). rewrite EK in Y, ER. rewrite LV in IK. destruct IK as [<-|IK].
  - exfalso. unfold c_eval in Y. rewrite (pp_fun rp alpha pia hd un PC) in Y.
    destruct (pp_s2t rp alpha pia hd P A40 PB un v PC V0) as (D & _). destruct (pp_dom _ _ _ _ _ PC) as (D1 & D2 & D3).
    pose proof (path_below rp alpha pia hd P A40 PB (s2t un v) ltac:(lra) HS). lra.
  - assert (FP : flank_place rp alpha pia (c_eval k v)).
    { unfold c_eval. apply (FLK k); [exact IK|]. apply (rising_dom rad2); [|exact V0]. rewrite List.Forall_forall in POST. apply POST, IK. }
    destruct FP as (_ & F2). destruct (F2 ltac:(lra)) as (q & Q & QP & EQ). rewrite EQ in Y, ER.
    rewrite radius_of in ER. unfold flank_point in ER. rewrite rad2_circle, sqrt_square in ER by lra. rewrite ER.
    apply (sharp_unique rp alpha pia rs q); try assumption. lra.
Qed.

(** ** Gears *)
(** A cylindrical gear with undercut relief, without fillets, and what its profile at the height [z] asks of the searches. *)
Record relief_gear (sv : solver) (fs : fsolver) (ts : tsolver) (g : igear) (n : Z) (z : R) : Prop := {
  rg_under : ip_undercut (ig_in g) = true; rg_tipf : ip_tip_fillet (ig_in g) = 0; rg_rootf : ip_root_fillet (ig_in g) = 0;
  rg_shape : relieved (IZR n / 2) (k_alpha (ig_core g)) (ig_pia g z) (k_ha (ig_core g)) (k_hd (ig_core g)) (2 * PI / IZR n);
  rg_solved : solved ts (IZR n / 2) (k_alpha (ig_core g)); rg_top : top_found ts (IZR n / 2) (k_alpha (ig_core g)) (ig_pia g z);
  rg_found : relief_found ts (IZR n / 2) (k_alpha (ig_core g)) (ig_pia g z) (k_ha (ig_core g)) (k_hd (ig_core g)) (2 * PI / IZR n);
  rg_cut : forall tooth, ig_tooth ts g z = Ok tooth -> let rc := generate_reference_circles (IZR n / 2) (k_ha (ig_core g)) (k_hd (ig_core g)) (k_ho (ig_core g)) 0 (IZR n / 2) in
    tip_found sv tooth (rc_a rc) (2 * PI / IZR n) /\
    (forall n1, trim_tip sv tooth (rc_a rc) 0 (2 * PI / IZR n) = Ok n1 -> root_found sv n1 (rc_d rc) (2 * PI / IZR n));
  rg_trunc : 0 < ip_tip_trunc (ig_in g) ->
    k_hd (ig_core g) < corner_side (IZR n / 2) (k_alpha (ig_core g)) (ig_pia g z) (k_hd (ig_core g)) /\
    0 < ig_pia g z + inv (k_alpha (ig_core g)) < PI /\
    flank_angle (IZR n / 2) (k_alpha (ig_core g)) (ig_pia g z) (IZR n / 2 + k_ha (ig_core g) + ip_tip_trunc (ig_in g)) <= 0 /\
    forall tooth, ig_tooth ts g z = Ok tooth -> plane_sound fs tooth }.

Theorem C121_involute sv fs ts g n z : cyl_gear g n -> relief_gear sv fs ts g n z ->
  let k := ig_core g in let rp := IZR n / 2 in let pitch := 2 * PI / IZR n in
  let phi := flank_angle rp (k_alpha k) (ig_pia g z) in let low := lowest rp (k_alpha k) (ig_pia g z) (k_hd k) in
  / 10000000000 < 2 * (rp + k_ha k) * sin (- phi (rp + k_ha k)) ->
  / 10000000000 < 2 * (rp - k_hd k) * sin (pitch / 2 + low) ->
  DELTA / 100 <= 2 * (rp - k_hd k) * sin (PI / IZR n) ->
  exists t, toothed sv fs ts g n z t /\ n_point t 0 = circle_pt (rp - k_hd k) low /\ n_point t 1 = circle_pt (rp + k_ha k) (phi (rp + k_ha k)) /\
    (forall s, 0 <= s <= 1 -> (exists x, x <= low /\ n_point t s = corner_path rp (k_alpha k) (ig_pia g z) (k_hd k) x) \/
       exists r, rp * cos (k_alpha k) < r <= rp + k_ha k /\ n_point t s = circle_pt r (phi r)) /\
    (forall s u, 0 <= s -> s < u -> u <= 1 -> rad2 (n_point t s) < rad2 (n_point t u)) /\ length (leaves t) = 2%nat.
Proof.
  intros CG [U T0 R0 RL S T RF CUT TRU] k rp pitch phi low TW RW AP. fold k rp in RL, S, T, RF, CUT, TRU. fold pitch in RL, RF, CUT.
  destruct (C121_tooth ts _ _ _ _ _ _ RL S T RF) as (tooth & un & post & E & RT & cf & EPF & _).
  assert (EG : ig_tooth ts g z = Ok tooth).
  { rewrite <- E. unfold ig_tooth. fold k. rewrite U. unfold k. rewrite (cg_cone _ _ CG), (cg_rp _ _ CG), (cg_teeth _ _ CG). destruct (Req_EM_T 0 0); [|contradiction]. reflexivity. }
  destruct (CUT tooth EG) as (TF & RF2).
  destruct (relief_flank sv rp (k_alpha k) (ig_pia g z) (k_ha k) (k_hd k) (k_ho k) rp pitch tooth un post RL RT TF RF2) as (t & TR & FO & NO & FR & PF & P0 & P1 & PTS & UPW & LEN).
  exists t. split.
  2:{ split; [exact P0|]. split; [exact P1|]. split; [|split; [exact UPW|rewrite EPF in LEN; cbn [length] in LEN; lia]]. intros s S0. destruct (PTS s S0) as [(x & X & K)|K]; [left; exists x; split; [apply X|exact K]|right; exact K]. }
  assert (PP : 0 < rp) by apply (rl_rp _ _ _ _ _ _ RL). pose proof (rl_root _ _ _ _ _ _ RL) as RD. pose proof (rl_h _ _ _ _ _ _ RL) as HH.
  split.
  - eexists. split; [exact FO|rewrite (cg_teeth _ _ CG); exact NO|]. exists tooth, tooth. cbv zeta. fold k. rewrite (cg_teeth _ _ CG), T0, R0. fold pitch.
    split; [exact EG|]. split; [|split; [|split; [exact FR|exact TR]]].
    + replace (k_cone k) with 0 by (symmetry; apply (cg_cone _ _ CG)). replace (k_rp k) with rp by (symmetry; apply (cg_rp _ _ CG)). symmetry.
      destruct (Rlt_le_dec 0 (ip_tip_trunc (ig_in g))) as [R1|R1]; [|apply C90_off, R1]. destruct (TRU R1) as (HS & PS & LE & SO).
      destruct (rl_al _ _ _ _ _ _ RL) as (A & C & B & TA).
      destruct (sharp_exists rp (k_alpha k) (ig_pia g z) PP A ltac:(lra)) as (rs & RS & E0).
      apply tip_kept; try lra. intros r CR. rewrite (relief_crossing fs _ _ _ _ _ _ tooth un post rs r RL RT PS HS (SO tooth EG) ltac:(lra) E0 CR).
      destruct (Rle_dec (rp + k_ha k + ip_tip_trunc (ig_in g)) rs) as [G|G]; [exact G|exfalso].
      destruct (flank_angle_mono rp (k_alpha k) (ig_pia g z) rs (rp + k_ha k + ip_tip_trunc (ig_in g)) PP C ltac:(lra) ltac:(lra)) as (_ & M). specialize (M ltac:(lra) ltac:(lra)). lra.
    + unfold filleted_flank. destruct (Rlt_dec 0 0); [lra|reflexivity].
  - exact PF.
  - unfold root_gap. rewrite P0. eapply Rlt_le_trans; [exact RW|]. apply gap_width.
  - unfold tip_gap. rewrite P1. eapply Rlt_le_trans; [exact TW|]. apply land_width.
  - rewrite P0. replace (axis_dist (circle_pt (rp - k_hd k) _)) with (rp - k_hd k); [exact AP|].
    unfold axis_dist. change (rp - k_hd k = sqrt (rad2 (circle_pt (rp - k_hd k) low))). rewrite rad2_circle, sqrt_square; lra.
Qed.

(** build_part() of a spur gear with undercut relief succeeds and the skin of the part is closed. *)
Theorem C121_part sv fs ts mid optC optS g n : cyl_gear g n -> ip_crown (ig_in g) = 0 -> ip_helix (ig_in g) = 0 -> (2 <= length (k_zvals (ig_core g)))%nat ->
  relief_gear sv fs ts g n 0 ->
  let k := ig_core g in let rp := IZR n / 2 in let pitch := 2 * PI / IZR n in
  let phi := flank_angle rp (k_alpha k) (ig_pia g 0) in let low := lowest rp (k_alpha k) (ig_pia g 0) (k_hd k) in
  / 10000000000 < 2 * (rp + k_ha k) * sin (- phi (rp + k_ha k)) ->
  / 10000000000 < 2 * (rp - k_hd k) * sin (pitch / 2 + low) ->
  DELTA / 100 <= 2 * (rp - k_hd k) * sin (PI / IZR n) ->
  exists t c, build_part sv fs ts mid optC optS (as_hgear g) = Ok c /\ paired (all_edges c) /\
    length (cy_sides c) = (Z.to_nat n * ((length (k_zvals k) - 1) * 6))%nat /\
    toothed sv fs ts g n 0 t /\ n_point t 0 = circle_pt (rp - k_hd k) low /\ n_point t 1 = circle_pt (rp + k_ha k) (phi (rp + k_ha k)) /\
    (forall s, 0 <= s <= 1 -> (exists x, x <= low /\ n_point t s = corner_path rp (k_alpha k) (ig_pia g 0) (k_hd k) x) \/
       exists r, rp * cos (k_alpha k) < r <= rp + k_ha k /\ n_point t s = circle_pt r (phi r)).
Proof.
  intros CG CR HX ZV RG k rp pitch phi low TW RW AP. destruct (C121_involute sv fs ts g n 0 CG RG TW RW AP) as (t & TD & P0 & P1 & PTS & _ & LEN).
  destruct (C116_spur sv fs ts mid optC optS (as_hgear g) n t) as (c & EB & PA & LC); try assumption.
  exists t, c. split; [exact EB|]. split; [exact PA|]. split; [rewrite LC, LEN; reflexivity|]. split; [exact TD|]. split; [exact P0|]. split; [exact P1|exact PTS].
Qed.

(** ** The searches have answers *)
Lemma back_hit c t : fresh c -> (2 <= c_ndiv c)%nat -> incr (c_ss c) -> c_t1 c < c_t0 c -> c_t1 c <= t <= c_t0 c -> exists u, 0 <= u <= 1 /\ s2t c u = t.
Proof.
  intros F H I LT HT. pose proof (fresh_tab c F H) as T. assert (L : length (c_ss c) = length (c_ts c)) by apply T.
  assert (IO : incr (map Ropp (c_ts c))).
  { apply incr_intro. intros i Hi. rewrite map_length in Hi. rewrite !nth_map_fun by lia.
    assert (D : forall ts, c_ts c = ts -> nth (S i) ts 0 < nth i ts 0); [|specialize (D _ eq_refl); lra].
    unfold fresh in F. assert (Hi' := Hi). rewrite <- F in Hi' |- *. intros ts <-. revert Hi'.
    unfold update_lengths. destruct (c_shape c); cbn [c_ts]; rewrite ?linspace_length; intros Hi'.
    2,3: simpl in Hi'; assert (i = 0)%nat by lia; subst i; simpl; exact LT.
    all: rewrite !linspace_nth by lia; rewrite S_INR;
      assert (0 < (c_t0 c - c_t1 c) / INR (c_ndiv c - 1)) by (apply Rdiv_lt_0_compat; [lra|apply INR_pos_2; lia]);
      replace ((c_t1 c - c_t0 c) / INR (c_ndiv c - 1)) with (- ((c_t0 c - c_t1 c) / INR (c_ndiv c - 1)))
        by (field; pose proof (INR_pos_2 (c_ndiv c) H); lra); nra. }
  assert (N : (2 <= length (c_ts c))%nat) by (rewrite <- L; apply T).
  assert (HH : List.hd 0 (map Ropp (c_ts c)) = - c_t0 c).
  { rewrite <- (tab_t0 _ _ _ _ _ T). destruct (c_ts c); [cbn in N; lia|reflexivity]. }
  assert (HL : last (map Ropp (c_ts c)) 0 = - c_t1 c).
  { rewrite <- (tab_t1 _ _ _ _ _ T). rewrite !last_nth, map_length, nth_map_fun by lia. reflexivity. }
  destruct (scan_inverse (map Ropp (c_ts c)) (c_ss c) (- t)) as [R' E]; auto.
  - rewrite map_length. symmetry. exact L.
  - rewrite map_length. exact N.
  - rewrite HH, HL. lra.
  - set (u := interp_scan (- t) (map Ropp (c_ts c)) (c_ss c)) in *. rewrite (tab_s0 _ _ _ _ _ T), (tab_s1 _ _ _ _ _ T) in R'.
    exists u. split; [exact R'|]. rewrite s2t_in by exact R'. rewrite np_interp_in by (rewrite (tab_s0 _ _ _ _ _ T), (tab_s1 _ _ _ _ _ T); exact R').
    rewrite scan_opp in E by exact L. lra.
Qed.

Lemma leaf_spot t pre c post u : n_active t = true -> List.Forall (fun c => 0 < c_length c) (leaves t) -> leaves t = pre ++ c :: post -> 0 <= u <= 1 -> pre = [] \/ 0 < u ->
  exists s, 0 <= s <= 1 /\ (0 < u -> 0 < s) /\ (u < 1 -> s < 1) /\ n_point t s = c_eval c u.
Proof.
  intros AC P L U PU. assert (NE : leaves t <> []) by apply active_leaves, AC.
  assert (TP : 0 < total (leaves t)) by (apply positive_total; split; assumption).
  pose proof (leaves_walk t AC P) as LW. rewrite L in *. set (T := total (pre ++ c :: post)) in *.
  pose proof P as P0. apply Forall_app in P0. destruct P0 as [Ppre Pc]. inversion Pc as [|? ? PC Ppost]; subst.
  assert (NN : forall l, List.Forall (fun c => 0 < c_length c) l -> List.Forall (fun c => 0 <= c_length c) l)
    by (intros l; apply Forall_impl; cbn; intros; lra).
  assert (TE : T = total pre + c_length c + total post) by (unfold T; rewrite total_app; unfold total; cbn; ring).
  pose proof (total_nonneg _ (NN _ Ppre)) as T1. pose proof (total_nonneg _ (NN _ Ppost)) as T2.
  assert (U1 : 0 <= u * c_length c) by (apply Rmult_le_pos; lra).
  assert (U2 : u * c_length c <= c_length c) by (rewrite <- (Rmult_1_l (c_length c)) at 2; apply Rmult_le_compat_r; lra).
  exists ((total pre + u * c_length c) / T).
  assert (K : (total pre + u * c_length c) / T * T = total pre + u * c_length c) by (field; lra).
  split; [|split; [|split]].
  - apply div_01; [exact TP|lra].
  - intros U0. apply Rmult_lt_0_compat; [|apply Rinv_0_lt_compat, TP].
    assert (0 < u * c_length c) by (apply Rmult_lt_0_compat; lra). lra.
  - intros U0. apply Rmult_lt_reg_r with T; [exact TP|]. rewrite K, Rmult_1_l.
    assert (u * c_length c < 1 * c_length c) by (apply Rmult_lt_compat_r; lra). lra.
  - rewrite LW, K. rewrite walk_app_r.
    + replace (total pre + u * c_length c - total pre) with (u * c_length c) by ring.
      replace u with (u * c_length c / c_length c) at 2 by (field; lra). rewrite <- local_in by exact PC.
      destruct post as [|d post]; cbn [walk]; [reflexivity|]. destruct (Rle_dec _ _); [reflexivity|contradiction].
    + apply NN, Ppre.
    + discriminate.
    + destruct PU as [->|PU]; [left; reflexivity|right].
      assert (0 < u * c_length c) by (apply Rmult_lt_0_compat; lra). lra.
Qed.

(** Where the corner touches the flank: in the pose in which it lies on the line of action. *)
Definition touch_pose (rp alpha pia hd : R) : R := - ((corner_side rp alpha pia hd + hd / tan alpha) / rp).
Definition touch_roll (rp alpha hd : R) : R := tan alpha - hd / (rp * (sin alpha * cos alpha)).
Lemma corner_touches rp alpha pia hd : 0 < rp -> 0 < alpha < PI / 2 ->
  corner_path rp alpha pia hd (touch_pose rp alpha pia hd) = involute_circle (touch_roll rp alpha hd) (rp * cos alpha) (- (pia + inv alpha)) ORIGIN 0.
Proof.
  intros P A. assert (C : 0 < cos alpha) by (apply cos_gt_0; lra). assert (S : 0 < sin alpha) by (apply sin_gt_0; lra).
  set (t := touch_pose rp alpha pia hd). set (x := touch_roll rp alpha hd).
  assert (Y : - corner_side rp alpha pia hd - rp * t = hd * cos alpha / sin alpha).
  { unfold t, touch_pose, tan. field. lra. }
  assert (TH : x + - (pia + inv alpha) = t + alpha).
  { unfold x, touch_roll, t, touch_pose, corner_side, inv, tan. assert (Q : sin alpha * sin alpha + cos alpha * cos alpha = 1) by apply sc1.
    apply Rmult_eq_reg_r with (rp * (sin alpha * cos alpha)); [|assert (0 < rp * (sin alpha * cos alpha)) by (repeat apply Rmult_lt_0_compat; assumption); lra].
    field_simplify; [|lra|lra]. assert (hd * cos alpha ^ 2 = hd - hd * sin alpha ^ 2) by (replace (cos alpha ^ 2) with (1 - sin alpha ^ 2) by (cbn; lra); ring). lra. }
  assert (X1 : rp * cos alpha * cos alpha + rp * cos alpha * x * sin alpha = rp - hd).
  { unfold x, touch_roll, tan. assert (Q : cos alpha * cos alpha = 1 - sin alpha * sin alpha) by (pose proof (sc1 alpha); lra). rewrite (Rmult_assoc rp), Q. field. lra. }
  assert (X2 : rp * cos alpha * sin alpha - rp * cos alpha * x * cos alpha = hd * cos alpha / sin alpha) by (unfold x, touch_roll, tan; field; lra).
  unfold corner_path, involute_circle. cbv zeta. rewrite Y. rewrite <- X2, <- X1. rewrite TH. clearbody x t. clear.
  apply vec_eq; unfold vsub, vadd, smul, mapp, rotz, RIGHT, UP, OUT, ORIGIN; cbn; rewrite ?cos_plus, ?sin_plus; ring.
Qed.

(** Where the path of the corner meets the involute between the base circle and the pitch circle, searches with the answers asked for exist:
    what is kept of both is a flank that reaches from the root to the symmetry plane. *)
Lemma relief_solvable rp alpha pia ha hd ho pitch : relieved rp alpha pia ha hd pitch -> 0 < pia + inv alpha <= 39 / 100 -> 0 <= ha ->
  corner_side rp alpha pia hd + sqrt (rp * rp - (rp - hd) * (rp - hd)) <= rp ->
  (exists t x, 0 < x /\ corner_path rp alpha pia hd t = involute_circle x (rp * cos alpha) (- (pia + inv alpha)) ORIGIN 0 /\ t < lowest rp alpha pia hd /\
     - sqrt (rp * rp - (rp - hd) * (rp - hd)) < corner_side rp alpha pia hd + rp * t) ->
  exists sv fs ts, solved ts rp alpha /\ top_found ts rp alpha pia /\ relief_found ts rp alpha pia ha hd pitch /\
    (forall tooth, involute_undercut_tooth ts rp alpha pia 0 pitch (Some (mkLim ha hd)) = Ok tooth ->
       let rc := generate_reference_circles rp ha hd ho 0 rp in
       (tip_found sv tooth (rc_a rc) pitch /\ (forall n1, trim_tip sv tooth (rc_a rc) 0 pitch = Ok n1 -> root_found sv n1 (rc_d rc) pitch)) /\
       plane_sound fs tooth /\ forall g, exists x, fs_plane fs tooth UP g = (true, x)).
Proof.
  intros RL PIA HA ROOM (tt & xx & XX & TO & TLW & TD). destruct (rl_al _ _ _ _ _ _ RL) as (A & C & B & TA). pose proof (rl_rp _ _ _ _ _ _ RL) as P. pose proof (rl_pitch _ _ _ _ _ _ RL) as PI0.
  pose proof (rl_alpha _ _ _ _ _ _ RL) as A40. pose proof (rl_root _ _ _ _ _ _ RL) as RD. pose proof (rl_base _ _ _ _ _ _ RL) as BA. pose proof (rl_inv _ _ _ _ _ _ RL) as I.
  pose proof (rl_h _ _ _ _ _ _ RL) as HH. pose proof (rl_side _ _ _ _ _ _ RL) as SI. pose proof (rl_gap _ _ _ _ _ _ RL) as GA.
  pose proof (rl_land _ _ _ _ _ _ RL) as LAND. pose proof (rl_angle _ _ _ _ _ _ (rp + ha) RL ltac:(lra)) as LO. pose proof PI_RGT_0 as PIP.
  assert (PB : 0 < rp - hd <= rp * cos alpha) by lra. assert (SA : 0 < sin alpha) by (apply sin_gt_0; lra).
  set (q := corner_side rp alpha pia hd) in *. set (lw := lowest rp alpha pia hd) in *. set (rb := rp * cos alpha) in *.
  assert (LW : rp * lw = - q) by (unfold lw, lowest; fold q; field; lra).
  set (D := rp * rp - (rp - hd) * (rp - hd)) in *.
  assert (HD0 : 0 < hd). { assert (cos alpha < 1) by (rewrite <- cos_0; apply cos_decreasing_1; lra). assert (rp * cos alpha < rp * 1) by (apply Rmult_lt_compat_l; lra). unfold rb in BA. lra. }
  assert (D0 : 0 < D). { unfold D. replace (rp * rp - (rp - hd) * (rp - hd)) with (hd * (rp + (rp - hd))) by ring. apply Rmult_lt_0_compat; lra. }
  assert (SD : 0 < sqrt D) by (apply sqrt_lt_R0; exact D0). pose proof (sqrt_sqrt D ltac:(lra)) as SQD.
  (* the touching point *)
  assert (YN : q + rp * tt < 0). { assert (rp * tt < rp * lw) by (apply Rmult_lt_compat_l; assumption). lra. }
  set (tp := - ((q + sqrt D) / rp)). assert (TP : rp * tp = - (q + sqrt D)) by (unfold tp; field; lra).
  assert (TPB : - (1) <= tp /\ tp < tt /\ tt < lw /\ lw < 0).
  { split; [apply Rmult_le_reg_l with rp; lra|]. split; [apply Rmult_lt_reg_l with rp; lra|]. split; apply Rmult_lt_reg_l with rp; lra. }
  assert (RT2 : rad2 (corner_path rp alpha pia hd tt) < (rp + ha) * (rp + ha)).
  { rewrite path_rad. fold q. assert ((- (q + rp * tt)) * (- (q + rp * tt)) < sqrt D * sqrt D) by (apply Rmult_le_0_lt_compat; lra). rewrite SQD in *. unfold D in *.
    assert (rp * rp <= (rp + ha) * (rp + ha)) by (apply Rmult_le_compat; lra). lra. }
  assert (RT3 : rad2 (corner_path rp alpha pia hd tt) = rb * rb * (1 + xx * xx)).
  { rewrite TO. unfold rb. rewrite flank_high by (assumption || lra). unfold flank_point. rewrite rad2_circle. fold rb.
    replace (rb * sqrt (1 + xx * xx) * (rb * sqrt (1 + xx * xx))) with (rb * rb * (sqrt (1 + xx * xx) * sqrt (1 + xx * xx))) by ring.
    rewrite sqrt_sqrt; [reflexivity|]. assert (0 <= xx * xx) by (apply Rmult_le_pos; lra). lra. }
  (* the path *)
  set (c := plane_undercut rp (V (rp - hd) (- q) 0)).
  assert (PU : path_piece rp alpha pia hd c).
  { split; [apply new_fresh|reflexivity|reflexivity|reflexivity|]. change (c_t0 c) with 0. change (c_t1 c) with (- (1)). lra. }
  assert (HITP : forall k t, path_piece rp alpha pia hd k -> c_t1 k <= t <= c_t0 k -> exists u, 0 <= u <= 1 /\ s2t k u = t).
  { intros k t K T0. apply back_hit; try assumption; [apply (pp_fresh _ _ _ _ _ K)|apply (pp_n2 _ _ _ _ _ K)|apply (pp_table rp alpha pia hd P A40 PB k K)|apply (pp_dom _ _ _ _ _ K)]. }
  assert (ENDS : forall k, path_piece rp alpha pia hd k -> s2t k 0 = c_t0 k /\ s2t k 1 = c_t1 k).
  { intros k K. apply C28_ends; [apply (pp_fresh _ _ _ _ _ K)|apply (pp_n2 _ _ _ _ _ K)|apply (pp_table rp alpha pia hd P A40 PB k K)]. }
  destruct (HITP c tp PU) as (xr & XR & EXR). { change (c_t0 c) with 0. change (c_t1 c) with (- (1)). lra. }
  assert (XR0 : 0 < xr). { destruct (Req_dec xr 0) as [->|]; [|lra]. destruct (ENDS c PU) as (K & _). change (c_t0 c) with 0 in K. lra. }
  destruct (pp_end rp alpha pia hd P A40 PB c xr PU ltac:(lra)) as (PE & PE1 & PE0). set (under := set_end_on c xr) in *. rewrite EXR in PE1. change (c_t0 c) with 0 in PE0.
  destruct (HITP under tt PE ltac:(lra)) as (x1 & X1 & EX1). assert (EX2 : s2t under x1 < lw) by lra.
  assert (X10 : 0 < x1). { destruct (Req_dec x1 0) as [->|]; [|lra]. destruct (ENDS under PE) as (K & _). lra. }
  assert (EU : c_eval under x1 = corner_path rp alpha pia hd tt) by (unfold c_eval; rewrite (pp_fun _ _ _ _ _ PE), EX1; reflexivity).
  (* the tooth *)
  destruct (sharp_searches rp alpha pia P A I PIA) as (ts0 & rs & _x & SV & TF & RS & Z & EV & _). fold rb in RS.
  assert (RAS : rp + ha < rs).
  { destruct (Rlt_dec (rp + ha) rs) as [G|G]; [exact G|exfalso]. destruct (flank_angle_mono rp alpha pia rs (rp + ha) P C ltac:(lra) ltac:(lra)) as (M & _). lra. }
  destruct (tooth_rising ts0 rp alpha pia P A I SV TF) as (RN & _ & c0 & c1 & L & _ & _ & _ & _ & C1 & D2 & F1). fold rb in F1.
  pose proof (rn_leaves _ _ RN) as RLL. rewrite L in RLL. inversion RLL as [|? ? R0 RLL']; subst. inversion RLL' as [|? ? R1 _]; subst.
  set (fl := plane_involute_flank ts0 rp alpha pia) in *. set (tooth0 := plane_involute_tooth ts0 rp alpha pia) in *.
  destruct (rising_ends rad2 fl R1) as (S0 & S1). rewrite D2 in S0. pose proof (ri_dom _ _ R1) as DF. rewrite D2 in DF.
  assert (FH : forall x, 0 <= x -> c_fun fl x = flank_point rp alpha pia (rb * sqrt (1 + x * x))) by (intros x X; rewrite F1; apply flank_high; assumption).
  assert (SQ : forall x, 0 < rb * sqrt (1 + x * x)).
  { intros x. apply Rmult_lt_0_compat; [exact B|]. apply sqrt_lt_R0. assert (0 <= x * x) by apply Rle_0_sqr. lra. }
  assert (END : rb * sqrt (1 + c_t1 fl * c_t1 fl) = rs).
  { unfold c_eval in EV. rewrite S1, FH in EV by lra. apply (f_equal rad2) in EV. unfold flank_point in EV. rewrite !rad2_circle in EV. apply sq_eq in EV; [exact EV|apply SQ|lra]. }
  assert (RXX : rb * sqrt (1 + xx * xx) < rp + ha).
  { apply sq_lt; [apply SQ|lra|]. rewrite RT3 in RT2. replace (rb * sqrt (1 + xx * xx) * (rb * sqrt (1 + xx * xx))) with (rb * rb * (sqrt (1 + xx * xx) * sqrt (1 + xx * xx))) by ring.
    rewrite sqrt_sqrt; [exact RT2|]. assert (0 <= xx * xx) by (apply Rmult_le_pos; lra). lra. }
  assert (XT : xx < c_t1 fl) by (apply (reach_mono rb); lra).
  destruct (rising_hit rad2 fl xx R1 ltac:(lra)) as (v & V0 & EVV).
  assert (V1 : 0 < v < 1). { split; [destruct (Req_dec v 0) as [->|]; lra|destruct (Req_dec v 1) as [->|]; lra]. }
  destruct (leaf_place rad2 tooth0 [c0] fl [] v RN L V0 (or_intror (proj1 V1))) as (x0 & X0 & _ & X01 & PX0). specialize (X01 (proj2 V1)).
  assert (M0 : n_point tooth0 x0 = c_eval under x1). { rewrite PX0, EU, TO. unfold c_eval. rewrite EVV. apply F1. }
  set (sr := (q - rp * pitch / 2) / ((ha + hd) * tan alpha)).
  set (ts := mkTs (fun m n k g0 g1 => if Req_EM_T g1 0 then ts_meet ts0 m n k g0 g1 else (true, x0, x1))
    (fun m n d p g => if Req_EM_T (vx p) 0 then ts_plane ts0 m n d p g else (true, sr)) (fun _ _ => xr) (ts_min ts0) (ts_base ts0)).
  assert (ET : plane_involute_tooth ts rp alpha pia = tooth0).
  { unfold tooth0, plane_involute_tooth. unfold ts at 1. cbn [ts_meet]. destruct (Req_EM_T 0 0); [|contradiction]. destruct (ts_meet ts0 _ _ _ _ _) as [[ok s2] y]. cbn [ts_plane ts vx ORIGIN].
    destruct (Req_EM_T 0 0); [reflexivity|contradiction]. }
  assert (EF : plane_involute_flank ts rp alpha pia = fl).
  { unfold fl, plane_involute_flank. unfold ts at 1. cbn [ts_meet]. destruct (Req_EM_T 0 0); [|contradiction]. destruct (ts_meet ts0 _ _ _ _ _) as [[ok s2] y]. cbn [ts_plane ts vx ORIGIN].
    destruct (Req_EM_T 0 0); [reflexivity|contradiction]. }
  assert (SV' : solved ts rp alpha). { unfold solved, ts. cbn [ts_meet]. destruct (Req_EM_T 0 0); [exact SV|contradiction]. }
  assert (TF' : top_found ts rp alpha pia). { unfold top_found, ts in *. cbn [ts_meet ts_plane vx ORIGIN] in *. destruct (Req_EM_T 0 0); [exact TF|contradiction]. }
  assert (EUN : relief_under ts rp alpha pia hd = under).
  { unfold relief_under, undercut_curve. destruct (Req_EM_T 0 0); [|contradiction]. cbn [ts ts_root]. destruct (Rlt_dec 0 xr); [reflexivity|contradiction]. }
  assert (EM : relief_meet ts rp alpha pia hd = (x0, x1)).
  { unfold relief_meet. rewrite ET, EUN. destruct (involute_tooth_flat ts0 rp alpha pia) as (cs & K & _). fold tooth0 in K. rewrite K.
    unfold trim_solution. cbn [ts ts_meet]. destruct (Req_EM_T 1 0); [lra|]. cbn [fst snd]. destruct (Rlt_dec _ _); [|reflexivity]. destruct (Req_EM_T _ 0); [lra|reflexivity]. }
  assert (RF : relief_found ts rp alpha pia ha hd pitch).
  { split.
    - cbv zeta. cbn [ts ts_plane splat vx]. destruct (Req_EM_T _ 0) as [K|_]; [exfalso; assert (0 < rp * pitch) by (apply Rmult_lt_0_compat; lra); lra|]. cbn [snd].
      rewrite rack_eval by lra. cbn [lm_ha lm_hd]. unfold along, splat, dot, vsub, vadd, smul, UP, OUT. cbn [vx vy vz].
      replace (sr * (ha + hd) - hd) with ((q - rp * pitch / 2) / tan alpha - hd) by (unfold sr; field; lra). unfold q, corner_side, tan. field. lra.
    - cbv zeta. cbn [ts ts_root]. lra.
    - rewrite EM. cbn [fst snd]. lra.
    - rewrite EM, EUN, ET. cbn [fst snd]. unfold meets. rewrite (leaves_wf tooth0 (rn_act _ _ RN) (rising_positive rad2 _ (rn_leaves _ _ RN))). f_equal. exact M0.
    - rewrite EM, EUN. cbn [snd]. fold lw. exact EX2.
    - rewrite EM, EUN. cbn [snd]. rewrite EU. split; [|exact RT2]. rewrite RT3. fold rb. assert (0 < xx * xx) by (apply Rmult_lt_0_compat; lra).
      assert (0 < rb * rb * (xx * xx)) by (repeat apply Rmult_lt_0_compat; lra). lra. }
  destruct (C121_tooth ts rp alpha pia ha hd pitch RL SV' TF' RF) as (tooth & un & post & E & RTT & cf & EP & T1F & FF). rewrite EF in T1F, FF. subst post.
  destruct RTT as [AC TR LV PC ST PAST NE POST JJ FLK MEET TOP]. fold rb in MEET. pose proof (Forall_inv POST) as RC.
  assert (UL : 0 < c_length un) by apply (pp_table rp alpha pia hd P A40 PB un PC).
  assert (POSL : List.Forall (fun c => 0 < c_length c) (leaves tooth)) by (rewrite LV; constructor; [exact UL|apply (rising_positive rad2), POST]).
  destruct (rising_ends rad2 cf RC) as (Q0 & Q1). pose proof (ri_dom _ _ RC) as DC.
  assert (FRL : List.Forall fresh (leaves tooth)) by (rewrite LV; repeat constructor; [apply (pp_fresh _ _ _ _ _ PC)|apply (ri_fresh _ _ RC)]).
  (* the tip *)
  destruct (reach rb (rp + ha) B) as (ta & TA0 & TAE). { destruct MEET as (K1 & K2). assert (rb * rb < (rp + ha) * (rp + ha)) by lra. left. apply sq_lt; lra. }
  assert (TA1 : ta < c_t1 cf) by (rewrite T1F; apply (reach_mono rb); lra).
  assert (TA2 : c_t0 cf < ta).
  { destruct (Rlt_dec (c_t0 cf) ta) as [G|G]; [exact G|exfalso]. destruct JJ as (J1 & _). rewrite J1 in MEET. unfold c_eval in MEET. rewrite Q0, FF, FH in MEET by lra.
    unfold flank_point in MEET. rewrite rad2_circle in MEET. assert (M : rb * sqrt (1 + c_t0 cf * c_t0 cf) < rp + ha) by (apply sq_lt; [apply SQ|lra|apply MEET]).
    rewrite <- TAE in M. apply reach_mono in M; lra. }
  destruct (rising_hit rad2 cf ta RC ltac:(lra)) as (u & U & EU').
  assert (U0 : 0 < u). { destruct (Req_dec u 0) as [->|]; lra. }
  destruct (leaf_spot tooth [un] cf [] u AC POSL LV U (or_intror U0)) as (sx & SX & SXP & _ & PX). specialize (SXP U0).
  assert (QX : n_point tooth sx = flank_point rp alpha pia (rp + ha)) by (rewrite PX; unfold c_eval; rewrite EU', FF, FH, TAE by lra; reflexivity).
  set (rc := generate_reference_circles rp ha hd ho 0 rp).
  destruct (C51_cylindrical rp ha hd ho rp P ltac:(lra) ltac:(lra)) as (_ & (CA & _) & (CD & _) & _). fold rc in CA, CD.
  assert (ON : forall r y w k, c_eval k y = V (r * cos (2 * PI * y)) (r * sin (2 * PI * y)) 0 -> y = w / (2 * PI) -> c_eval k y = circle_pt r w).
  { intros r y w k -> ->. replace (2 * PI * (w / (2 * PI))) with w by (field; lra). reflexivity. }
  (* the root *)
  destruct (set_end_spec tooth AC (positive_wf _ AC POSL) FRL false sx) as (pre & k & post' & w & m & L2 & EN & LM & EV2 & PL & PA & PBB).
  assert (HU : exists r, leaves m = un :: r /\ List.Forall (fun c => 0 < c_length c) (leaves m)).
  { assert (POS2 := POSL). rewrite L2 in POS2. pose proof (n_length_total tooth AC) as NL. rewrite L2 in NL.
    assert (CL : 0 < c_length k) by (apply Forall_app in POS2; destruct POS2 as [_ K]; inversion K; assumption).
    assert (TPO : 0 < total (pre ++ k :: post')) by (apply positive_total; split; [destruct pre; discriminate|exact POS2]).
    destruct (cut_place pre k post' w sx (n_length tooth) POS2 NL (PL ltac:(lra) ltac:(lra)) PA PBB) as (_ & W0 & W1 & _). specialize (W0 ltac:(lra)). specialize (W1 ltac:(lra)).
    rewrite (leaves_wf tooth AC POSL sx) in EV2. apply Ok_inj in EV2. rewrite LV in L2. destruct pre as [|d0 [|d1 pre]]; cbn in L2.
    - exfalso. injection L2 as <- _. rewrite QX in EV2. apply (f_equal rad2) in EV2. unfold flank_point in EV2. rewrite rad2_circle in EV2.
      unfold c_eval in EV2. rewrite (pp_fun _ _ _ _ _ PC) in EV2. destruct (pp_s2t rp alpha pia hd P A40 PB un w PC ltac:(lra)) as (DW & _). set (x := s2t un w) in *.
      destruct (Rle_dec lw x) as [G|G].
      + rewrite path_rad in EV2. fold q in EV2. pose proof (rl_out _ _ _ _ _ _ RL) as OU. fold q in OU. assert (0 <= q + rp * x <= q).
        { split; [assert (rp * lw <= rp * x) by (apply Rmult_le_compat_l; lra); lra|]. assert (rp * x <= rp * 0) by (apply Rmult_le_compat_l; lra). lra. }
        assert ((q + rp * x) * (q + rp * x) <= q * q) by (apply Rmult_le_compat; lra). lra.
      + destruct (Req_dec x (c_t1 un)) as [EX|NX].
        * rewrite fresh_end in MEET by (apply (pp_fresh _ _ _ _ _ PC) || apply (pp_n2 _ _ _ _ _ PC)). rewrite (pp_fun _ _ _ _ _ PC) in MEET. rewrite EX in EV2. lra.
        * pose proof (path_rising rp alpha pia hd P x (c_t1 un) ltac:(lra) ltac:(fold lw; lra)) as K.
          rewrite fresh_end in MEET by (apply (pp_fresh _ _ _ _ _ PC) || apply (pp_n2 _ _ _ _ _ PC)). rewrite (pp_fun _ _ _ _ _ PC) in MEET. lra.
    - injection L2 as <- <- _. exists [set_end_on cf w]. split; [exact LM|]. rewrite LM. constructor; [exact UL|constructor; [|constructor]].
      apply (rising_table rad2). apply rising_end; [exact RC|lra].
    - injection L2 as _ _ L2. destruct pre; discriminate L2. }
  destruct HU as (rest & LM1 & POSM). assert (ACM : n_active m = true) by (apply active_leaves; rewrite LM1; discriminate).
  destruct (HITP un lw PC) as (y & Y0 & EY). { fold lw in PAST. lra. }
  assert (Y1 : y < 1). { destruct (Req_dec y 1) as [->|]; [|lra]. destruct (ENDS un PC) as (_ & K). fold lw in PAST. lra. }
  destruct (leaf_spot m [] un rest y ACM POSM LM1 Y0 (or_introl eq_refl)) as (sy & SY & _ & SY1 & PY). specialize (SY1 Y1).
  assert (QY : n_point m sy = circle_pt (rp - hd) lw). { rewrite PY. unfold c_eval. rewrite EY, (pp_fun _ _ _ _ _ PC). apply (lowest_point rp alpha pia hd P). }
  set (a := (sx, flank_angle rp alpha pia (rp + ha) / (2 * PI))). set (b := (sy, lw / (2 * PI))).
  assert (MX : meets tooth sx (rc_a rc) (snd a)).
  { unfold meets. rewrite (leaves_wf tooth AC POSL). f_equal. rewrite QX. symmetry. apply (ON (rp + ha)); [apply CA|reflexivity]. }
  exists (answers a b), (meets_at 1), ts. split; [exact SV'|]. split; [exact TF'|]. split; [exact RF|]. intros tooth' ET'. rewrite E in ET'. apply Ok_inj in ET'. subst tooth'. cbv zeta. fold rc.
  split; [|split; [|intros; exists 1; reflexivity]].
  - split.
    { exists sx, (snd a). split; [|split; [lra|exact MX]]. unfold answers. cbn [sv_meet]. destruct (Req_EM_T _ _); [reflexivity|lra]. }
    intros n1' TT. assert (n1' = m).
    { revert TT. unfold trim_tip. destruct (Rlt_dec 0 0); [lra|]. cbv zeta. unfold answers at 1 2 3. cbn [sv_meet].
      destruct (Req_EM_T (9 / 10) (9 / 10)); [|lra]. cbn [fst]. change (fst a) with sx. unfold meets in MX. rewrite MX. cbn [bind orb andb].
      unfold lt_b. destruct (Rlt_dec _ 0) as [G|G]; [intros Q; rewrite EN in Q; apply Ok_inj in Q; auto|].
      exfalso. apply G. rewrite (ON (rp + ha) (snd a) _ (rc_a rc) (CA _) eq_refl). unfold circle_pt. cbn [vy].
      assert (0 < sin (- flank_angle rp alpha pia (rp + ha))) by (apply sin_gt_0; lra). rewrite sin_neg in *.
      assert (0 < (rp + ha) * - sin (flank_angle rp alpha pia (rp + ha))) by (apply Rmult_lt_0_compat; lra). lra. }
    subst n1'. exists sy, (snd b). split; [|split; [lra|]].
    + unfold answers. cbn [sv_meet]. destruct (Req_EM_T _ _); [lra|reflexivity].
    + unfold meets. rewrite (leaves_wf m ACM POSM). f_equal. rewrite QY. symmetry. apply (ON (rp - hd)); [apply CD|reflexivity].
  - intros g x EX. unfold meets_at in EX. cbn [fs_plane] in EX. injection EX as <-. split; [lra|].
    destruct (leaves_ends tooth dummy_curve AC POSL) as (_ & ->). rewrite LV. cbn [last]. unfold c_eval. rewrite Q1, T1F, FF, FH, END by lra.
    unfold flank_point. rewrite Z. cbn [circle_pt vy]. rewrite sin_0. ring.
Qed.

(** With less than the dedendum at which the rack's corner just reaches the base circle's tangent point the corner touches the involute. *)
Lemma corner_reached rp alpha pia hd : 0 < rp -> 0 < alpha < PI / 2 -> 0 < hd -> 0 < rp - hd -> hd < rp * (sin alpha * sin alpha) ->
  exists t x, 0 < x /\ corner_path rp alpha pia hd t = involute_circle x (rp * cos alpha) (- (pia + inv alpha)) ORIGIN 0 /\ t < lowest rp alpha pia hd /\
     - sqrt (rp * rp - (rp - hd) * (rp - hd)) < corner_side rp alpha pia hd + rp * t.
Proof.
  intros P A HD0 RD HS. assert (C : 0 < cos alpha) by (apply cos_gt_0; lra). assert (SA : 0 < sin alpha) by (apply sin_gt_0; lra). assert (TA : 0 < tan alpha) by (apply Rdiv_lt_0_compat; assumption).
  set (q := corner_side rp alpha pia hd) in *. set (rb := rp * cos alpha) in *. set (tt := touch_pose rp alpha pia hd). set (xx := touch_roll rp alpha hd). set (D := rp * rp - (rp - hd) * (rp - hd)) in *.
  assert (D0 : 0 < D). { unfold D. replace (rp * rp - (rp - hd) * (rp - hd)) with (hd * (rp + (rp - hd))) by ring. apply Rmult_lt_0_compat; lra. }
  assert (SD : 0 < sqrt D) by (apply sqrt_lt_R0; exact D0). pose proof (sqrt_sqrt D ltac:(lra)) as SQD.
  assert (XX : 0 < xx).
  { unfold xx, touch_roll, tan. replace (sin alpha / cos alpha - hd / (rp * (sin alpha * cos alpha))) with ((rp * (sin alpha * sin alpha) - hd) / (rp * (sin alpha * cos alpha))) by (field; lra).
    apply Rdiv_lt_0_compat; [lra|repeat apply Rmult_lt_0_compat; assumption]. }
  pose proof (corner_touches rp alpha pia hd P A) as TO. fold tt xx rb in TO.
  assert (Y : q + rp * tt = - (hd / tan alpha)) by (unfold tt, touch_pose; fold q; field; lra).
  assert (HT : hd / tan alpha < sqrt D).
  { apply sq_lt; [apply Rdiv_lt_0_compat; lra|lra|]. rewrite SQD. unfold D, tan.
    replace (rp * rp - (rp - hd) * (rp - hd)) with (hd * (2 * rp - hd)) by ring.
    replace (hd / (sin alpha / cos alpha) * (hd / (sin alpha / cos alpha))) with (hd * (hd * (cos alpha * cos alpha) / (sin alpha * sin alpha))) by (field; lra).
    apply Rmult_lt_compat_l; [exact HD0|]. assert (SS : 0 < sin alpha * sin alpha) by (apply Rmult_lt_0_compat; assumption).
    apply Rmult_lt_reg_r with (sin alpha * sin alpha); [exact SS|]. replace (hd * (cos alpha * cos alpha) / (sin alpha * sin alpha) * (sin alpha * sin alpha)) with (hd * (cos alpha * cos alpha)) by (field; lra).
    replace (cos alpha * cos alpha) with (1 - sin alpha * sin alpha) by (pose proof (sc1 alpha); lra). assert (0 < rp * (sin alpha * sin alpha)) by (apply Rmult_lt_0_compat; assumption). lra. }
  assert (HT0 : 0 < hd / tan alpha) by (apply Rdiv_lt_0_compat; lra).
  exists tt, xx. split; [exact XX|]. split; [exact TO|]. split; [|lra].
  assert (LW : rp * lowest rp alpha pia hd = - q) by (unfold lowest; fold q; field; lra). apply Rmult_lt_reg_l with rp; lra.
Qed.
Theorem C121_solvable rp alpha pia ha hd ho pitch : relieved rp alpha pia ha hd pitch -> 0 < pia + inv alpha <= 39 / 100 -> 0 <= ha ->
  hd < rp * (sin alpha * sin alpha) -> corner_side rp alpha pia hd + sqrt (rp * rp - (rp - hd) * (rp - hd)) <= rp ->
  exists sv fs ts, solved ts rp alpha /\ top_found ts rp alpha pia /\ relief_found ts rp alpha pia ha hd pitch /\
    (forall tooth, involute_undercut_tooth ts rp alpha pia 0 pitch (Some (mkLim ha hd)) = Ok tooth ->
       let rc := generate_reference_circles rp ha hd ho 0 rp in
       (tip_found sv tooth (rc_a rc) pitch /\ (forall n1, trim_tip sv tooth (rc_a rc) 0 pitch = Ok n1 -> root_found sv n1 (rc_d rc) pitch)) /\
       plane_sound fs tooth /\ forall g, exists x, fs_plane fs tooth UP g = (true, x)).
Proof.
  intros RL PIA HA HS ROOM. apply relief_solvable; try assumption. destruct (rl_al _ _ _ _ _ _ RL) as (A & C & B & TA). pose proof (rl_rp _ _ _ _ _ _ RL) as P.
  pose proof (rl_root _ _ _ _ _ _ RL) as RD. pose proof (rl_base _ _ _ _ _ _ RL) as BA.
  assert (HD0 : 0 < hd). { assert (cos alpha < 1) by (rewrite <- cos_0; apply cos_decreasing_1; lra). assert (rp * cos alpha < rp * 1) by (apply Rmult_lt_compat_l; lra). lra. }
  apply corner_reached; assumption.
Qed.

(** A point in the right half plane by its polar angle. *)
Lemma polar_atan a y : 0 < a -> a = sqrt (a * a + y * y) * cos (atan (y / a)) /\ y = sqrt (a * a + y * y) * sin (atan (y / a)).
Proof.
  intros A. assert (Y2 : 0 <= y * y) by apply Rle_0_sqr. assert (AA : 0 < a * a) by (apply Rmult_lt_0_compat; lra).
  assert (E : sqrt (a * a + y * y) = a * sqrt (1 + (y / a)²)).
  { transitivity (sqrt (a * a) * sqrt (1 + (y / a)²)); [|rewrite sqrt_square by lra; reflexivity]. rewrite <- sqrt_mult_alt by lra. f_equal. unfold Rsqr. field. lra. }
  rewrite cos_atan, sin_atan, E. assert (0 < sqrt (1 + (y / a)²)). { apply sqrt_lt_R0. pose proof (Rle_0_sqr (y / a)). unfold Rsqr in *. lra. }
  split; field; lra.
Qed.

(** Where the corner cuts the flank: a deeper rack's corner has entered the flank at the base circle and has left it again at the pitch
    circle. *)
Lemma corner_cuts rp alpha pia hd u : 0 < rp -> 0 < alpha < PI / 2 -> 0 < rp - hd -> rp * (sin alpha * sin alpha) < hd -> 0 < u < PI / 4 ->
  hd = 2 * rp * (sin u * sin u) -> u < sin u * cos u + sin u * sin u * tan alpha ->
  exists t x, 0 < x /\ corner_path rp alpha pia hd t = involute_circle x (rp * cos alpha) (- (pia + inv alpha)) ORIGIN 0 /\ t < lowest rp alpha pia hd /\
    - sqrt (rp * rp - (rp - hd) * (rp - hd)) < corner_side rp alpha pia hd + rp * t.
Proof.
  intros P A RD HS U HU KU. assert (C : 0 < cos alpha) by (apply cos_gt_0; lra). assert (S : 0 < sin alpha) by (apply sin_gt_0; lra).
  set (q := corner_side rp alpha pia hd). set (a := rp - hd) in *. set (rb := rp * cos alpha). assert (B : 0 < rb) by (apply Rmult_lt_0_compat; assumption).
  assert (C1 : cos alpha < 1) by (rewrite <- cos_0; apply cos_decreasing_1; lra).
  assert (AB : a < rb * cos alpha).
  { unfold a, rb. replace (rp * cos alpha * cos alpha) with (rp * (cos alpha * cos alpha)) by ring. replace (cos alpha * cos alpha) with (1 - sin alpha * sin alpha) by (pose proof (sc1 alpha); lra). lra. }
  assert (RBC : rb * cos alpha < rb * 1) by (apply Rmult_lt_compat_l; lra). assert (AA : a * a < rb * rb) by (apply Rmult_le_0_lt_compat; lra).
  set (y := fun x => sqrt (rb * rb * (1 + x * x) - a * a)). set (ang := - (pia + inv alpha)).
  set (G := fun x => atan x - x - ang - (q + y x) / rp + atan (y x / a)).
  assert (ARG : forall x, 0 < rb * rb * (1 + x * x) - a * a).
  { intros x. assert (0 <= rb * rb * (x * x)) by (apply Rmult_le_pos; apply Rle_0_sqr). lra. }
  assert (YP : forall x, 0 < y x) by (intros x; apply sqrt_lt_R0, ARG).
  assert (YY : forall x, y x * y x = rb * rb * (1 + x * x) - a * a) by (intros x; apply sqrt_sqrt; pose proof (ARG x); lra).
  assert (CY : forall x, continuity_pt y x).
  { intros x. unfold y. apply (continuity_pt_comp (fun x => rb * rb * (1 + x * x) - a * a) sqrt); [reg|]. apply continuity_pt_sqrt. pose proof (ARG x). lra. }
  assert (CA : forall x, continuity_pt atan x) by (intros x; apply derivable_continuous_pt, derivable_pt_atan).
  assert (CG : forall x, continuity_pt G x).
  { intros x. unfold G. apply (continuity_pt_plus (fun x => atan x - x - ang - (q + y x) / rp) (fun x => atan (y x / a))).
    - apply (continuity_pt_minus (fun x => atan x - x - ang) (fun x => (q + y x) / rp)).
      + apply (continuity_pt_minus (fun x => atan x - x) (fun _ => ang)); [|apply continuity_pt_const; intros ? ?; reflexivity].
        apply (continuity_pt_minus atan (fun x => x)); [apply CA|]. apply derivable_continuous_pt, derivable_pt_id.
      + apply (continuity_pt_mult (fun x => q + y x) (fun _ => / rp)); [|apply continuity_pt_const; intros ? ?; reflexivity].
        apply (continuity_pt_plus (fun _ => q) y); [apply continuity_pt_const; intros ? ?; reflexivity|apply CY].
    - apply (continuity_pt_comp (fun x => y x / a) atan); [|apply CA]. apply (continuity_pt_mult y (fun _ => / a)); [apply CY|apply continuity_pt_const; intros ? ?; reflexivity]. }
  assert (TA : 0 < tan alpha) by (apply Rdiv_lt_0_compat; assumption).
  (* at the base circle *)
  assert (G0 : 0 < G 0).
  { destruct (polar_atan a (y 0) RD) as (PA & PY). rewrite YY in PA, PY. replace (a * a + (rb * rb * (1 + 0 * 0) - a * a)) with (rb * rb) in PA, PY by ring. rewrite sqrt_square in PA, PY by lra.
    set (ph := atan (y 0 / a)) in *. assert (PB : 0 < ph < PI / 2).
    { unfold ph. split; [rewrite <- atan_0; apply atan_increasing, Rdiv_lt_0_compat; [apply YP|exact RD]|]. pose proof (atan_bound (y 0 / a)). lra. }
    assert (PH : alpha < ph).
    { apply cos_decreasing_0; try lra. apply Rmult_lt_reg_l with rb; [exact B|]. rewrite <- PA. exact AB. }
    assert (E : G 0 = ph - alpha - sin (ph - alpha)).
    { unfold G. fold ph. rewrite atan_0. rewrite PY. unfold ang, inv. rewrite sin_minus.
      assert (HD : hd = rp - rb * cos ph) by (unfold a in PA; lra). unfold q, corner_side. rewrite HD. unfold rb, tan. field. lra. }
    rewrite E. pose proof (sin_lt_x (ph - alpha) ltac:(lra)). lra. }
  (* at the pitch circle *)
  assert (G1 : G (tan alpha) < 0).
  { assert (YT : y (tan alpha) = rp * sin (2 * u)).
    { unfold y. replace (rb * rb * (1 + tan alpha * tan alpha)) with (rp * rp).
      - replace (rp * rp - a * a) with (rp * sin (2 * u) * (rp * sin (2 * u))); [rewrite sqrt_square; [reflexivity|]; apply Rmult_le_pos; [lra|apply sin_ge_0; lra]|].
        unfold a. rewrite sin_2a. rewrite HU. assert (Q : cos u * cos u = 1 - sin u * sin u) by (pose proof (sc1 u); lra).
        replace (rp * (2 * sin u * cos u) * (rp * (2 * sin u * cos u))) with (4 * (rp * rp) * (sin u * sin u) * (cos u * cos u)) by ring. rewrite Q. ring.
      - unfold rb, tan. assert (Q : sin alpha * sin alpha = 1 - cos alpha * cos alpha) by (pose proof (sc1 alpha); lra).
        replace (rp * cos alpha * (rp * cos alpha) * (1 + sin alpha / cos alpha * (sin alpha / cos alpha))) with (rp * rp * (cos alpha * cos alpha + sin alpha * sin alpha)) by (field; lra). rewrite Q. ring. }
    assert (AU : a = rp * cos (2 * u)) by (unfold a; rewrite cos_2a_sin, HU; ring).
    assert (AT : atan (y (tan alpha) / a) = 2 * u).
    { rewrite YT, AU. assert (0 < cos (2 * u)) by (apply cos_gt_0; lra). replace (rp * sin (2 * u) / (rp * cos (2 * u))) with (tan (2 * u)) by (unfold tan; field; lra). apply atan_tan. lra. }
    unfold G. rewrite AT, YT. rewrite atan_tan by lra. unfold ang, inv, q, corner_side. rewrite sin_2a. rewrite HU.
    replace (alpha - tan alpha - - (pia + (tan alpha - alpha)) - (rp * pia + 2 * rp * (sin u * sin u) * tan alpha + rp * (2 * sin u * cos u)) / rp + 2 * u)
      with (2 * (u - (sin u * cos u + sin u * sin u * tan alpha))) by (field; lra). lra. }
  destruct (IVT_interv (fun x => - G x) 0 (tan alpha)) as (x & (X0 & X1) & EX).
  - intros x _. apply (continuity_pt_opp G), CG.
  - exact TA.
  - lra.
  - lra.
  - assert (EG : G x = 0) by lra. assert (XN : 0 < x) by (destruct (Req_dec x 0) as [->|]; lra). assert (XT : x < tan alpha) by (destruct (Req_dec x (tan alpha)) as [->|]; lra).
    exists (- ((q + y x) / rp)), x. split; [exact XN|]. pose proof (YP x) as Y0.
    assert (QT : q + rp * - ((q + y x) / rp) = - y x) by (field; lra). split; [|split].
    + destruct (polar_atan a (y x) RD) as (PA & PY). destruct (polar_atan rb (rb * x) B) as (PC & PX). rewrite YY in PA, PY.
      replace (a * a + (rb * rb * (1 + x * x) - a * a)) with (rb * rb * (1 + x * x)) in PA, PY by ring.
      replace (rb * rb + rb * x * (rb * x)) with (rb * rb * (1 + x * x)) in PC, PX by ring. replace (rb * x / rb) with x in PC, PX by (field; lra).
      set (R := sqrt (rb * rb * (1 + x * x))) in *. set (ps := atan (y x / a)) in *. set (be := atan x) in *. set (t := - ((q + y x) / rp)) in *.
      assert (TH : x + ang = t + ps + be) by (unfold G in EG; fold ps be in EG; unfold t; unfold Rdiv in *; lra).
      assert (YE : - q - rp * t = y x) by lra.
      assert (EC : cos (t + ps + be) * rb + sin (t + ps + be) * (rb * x) = R * cos (t + ps)).
      { replace (t + ps) with (t + ps + be - be) at 3 by ring. rewrite (cos_minus (t + ps + be) be).
        transitivity (cos (t + ps + be) * (R * cos be) + sin (t + ps + be) * (R * sin be)); [rewrite <- PC, <- PX; reflexivity|ring]. }
      assert (ES : sin (t + ps + be) * rb - cos (t + ps + be) * (rb * x) = R * sin (t + ps)).
      { replace (t + ps) with (t + ps + be - be) at 3 by ring. rewrite (sin_minus (t + ps + be) be).
        transitivity (sin (t + ps + be) * (R * cos be) - cos (t + ps + be) * (R * sin be)); [rewrite <- PC, <- PX; reflexivity|ring]. }
      unfold corner_path, involute_circle. cbv zeta. fold q a rb ang. rewrite YE, TH.
      apply vec_eq; unfold vsub, vadd, smul, mapp, rotz, RIGHT, UP, OUT, DOWN, ORIGIN; cbn [vx vy vz m11 m12 m13 m21 m22 m23 m31 m32 m33].
      * transitivity (R * cos (t + ps)); [rewrite cos_plus; rewrite PA, PY at 1; ring|rewrite <- EC; ring].
      * transitivity (R * sin (t + ps)); [rewrite sin_plus; rewrite PA, PY at 1; ring|rewrite <- ES; ring].
      * ring.
    + unfold lowest. fold q. apply Ropp_lt_contravar. apply Rmult_lt_compat_r; [apply Rinv_0_lt_compat, P|lra].
    + rewrite QT. apply Ropp_lt_contravar. unfold y. apply sqrt_lt_1_alt. pose proof (ARG x). split; [lra|]. apply Rplus_lt_compat_r.
      replace (rp * rp) with (rb * rb * (1 + tan alpha * tan alpha)).
      * apply Rmult_lt_compat_l; [apply Rmult_lt_0_compat; assumption|]. assert (x * x < tan alpha * tan alpha) by (apply Rmult_le_0_lt_compat; lra). lra.
      * unfold rb, tan. assert (Q : sin alpha * sin alpha = 1 - cos alpha * cos alpha) by (pose proof (sc1 alpha); lra).
        replace (rp * cos alpha * (rp * cos alpha) * (1 + sin alpha / cos alpha * (sin alpha / cos alpha))) with (rp * rp * (cos alpha * cos alpha + sin alpha * sin alpha)) by (field; lra). rewrite Q. ring.
Qed.

(** Between that dedendum and twice of it the corner cuts into the involute, above the base circle. *)
Lemma cut_small u alpha : 0 < alpha < PI / 2 -> 0 < u <= alpha -> u < sin u * cos u + sin u * sin u * tan alpha.
Proof.
  intros A U. assert (C : 0 < cos alpha) by (apply cos_gt_0; lra). assert (CU : 0 < cos u) by (apply cos_gt_0; lra). assert (SU : 0 < sin u) by (apply sin_gt_0; lra).
  assert (T : u < tan u) by (pose proof (inv_strict 0 u ltac:(lra) ltac:(lra) ltac:(lra)) as K; rewrite inv_0 in K; unfold inv in K; lra). apply Rlt_le_trans with (tan u); [exact T|].
  apply Rmult_le_reg_r with (cos u * cos alpha); [apply Rmult_lt_0_compat; assumption|]. unfold tan.
  replace (sin u / cos u * (cos u * cos alpha)) with (sin u * cos alpha) by (field; lra).
  replace ((sin u * cos u + sin u * sin u * (sin alpha / cos alpha)) * (cos u * cos alpha)) with (sin u * ((cos alpha * cos u + sin alpha * sin u) * cos u)) by (field; lra).
  rewrite <- cos_minus. apply Rmult_le_compat_l; [lra|].
  assert (SM : 0 <= sin (alpha - u)) by (apply sin_ge_0; lra).
  replace alpha with (alpha - u + u) at 1 by ring. rewrite cos_plus. assert (0 <= sin (alpha - u) * sin u) by (apply Rmult_le_pos; lra). lra.
Qed.
Lemma half_angle rp hd : 0 < rp -> 0 < hd -> 0 < rp - hd -> exists u, 0 < u < PI / 4 /\ hd = 2 * rp * (sin u * sin u).
Proof.
  intros P H D. set (c := (rp - hd) / rp). assert (CB : 0 < c < 1).
  { unfold c. split; [apply Rdiv_lt_0_compat; lra|]. apply Rmult_lt_reg_r with rp; [exact P|]. unfold Rdiv. rewrite Rmult_assoc, Rinv_l by lra. lra. }
  assert (AB : 0 < acos c < PI / 2). { pose proof (acos_bound c). split.
    - destruct (Req_dec (acos c) 0) as [E|E]; [|lra]. apply (f_equal cos) in E. rewrite cos_acos, cos_0 in E; lra.
    - destruct (Rlt_dec (acos c) (PI / 2)) as [G|G]; [exact G|exfalso]. pose proof (cos_le_0 (acos c) ltac:(lra) ltac:(lra)) as K. rewrite cos_acos in K; lra. }
  exists (acos c / 2). split; [lra|]. pose proof (cos_2a_sin (acos c / 2)) as E. replace (2 * (acos c / 2)) with (acos c) in E by field. rewrite cos_acos in E by lra.
  assert (K : sin (acos c / 2) * sin (acos c / 2) = (1 - c) / 2) by lra. rewrite K. unfold c. field. lra.
Qed.
Lemma cut_bound u : 0 < u < PI / 4 -> sin u <= 35 / 100 -> u < sin u * cos u + sin u * sin u * (36 / 100).
Proof.
  intros U S1. assert (SU : 0 < sin u) by (apply sin_gt_0; lra). assert (CU : 0 < cos u) by (apply cos_gt_0; lra). pose proof (sc1 u) as SC. pose proof PI_3.
  set (s := sin u) in *. assert (S2 : 0 < s * s) by (apply Rmult_lt_0_compat; lra). assert (S2B : s * s <= 35 / 100 * (35 / 100)) by (apply Rmult_le_compat; lra).
  assert (CB : 1 - 55 / 100 * (s * s) <= cos u).
  { left. apply sq_lt; [lra|lra|]. assert (0 < s * s * (s * s)) by (apply Rmult_lt_0_compat; lra). assert (s * s * (s * s) <= 35 / 100 * (35 / 100) * (s * s)) by (apply Rmult_le_compat_r; lra). lra. }
  set (r := s + 36 / 100 * (s * s) - 55 / 100 * (s * (s * s))).
  assert (S3 : 0 < s * (s * s)) by (apply Rmult_lt_0_compat; lra). assert (S3B : s * (s * s) <= 35 / 100 * (s * s)) by (apply Rmult_le_compat_r; lra).
  assert (SSB : s * s <= 35 / 100 * s) by (apply Rmult_le_compat_r; lra).
  assert (RB : s < r <= 1126 / 1000 * s) by (unfold r; lra).
  assert (R3 : r * (r * r) <= 1126 / 1000 * s * (1126 / 1000 * s * (1126 / 1000 * s))) by (repeat apply Rmult_le_compat; try lra; apply Rmult_le_pos; lra).
  assert (K : s < sin r).
  { pose proof (IndexProps.sin_lower r) as L. assert (0 < sin r) by (apply sin_gt_0; lra). rewrite !Rabs_pos_eq in L by lra. unfold r in *. lra. }
  assert (UR : u < r). { destruct (Rlt_dec u r) as [G|G]; [exact G|exfalso]. assert (sin r <= sin u) by (apply sin_incr_1; lra). unfold s in *. lra. }
  assert (s * (1 - 55 / 100 * (s * s)) <= s * cos u) by (apply Rmult_le_compat_l; lra). unfold r in *. lra.
Qed.
Theorem C121_solvable_cut rp alpha pia ha hd ho pitch : relieved rp alpha pia ha hd pitch -> 0 < pia + inv alpha <= 39 / 100 -> 0 <= ha ->
  rp * (sin alpha * sin alpha) < hd <= 2 * rp * (sin alpha * sin alpha) -> corner_side rp alpha pia hd + sqrt (rp * rp - (rp - hd) * (rp - hd)) <= rp ->
  exists sv fs ts, solved ts rp alpha /\ top_found ts rp alpha pia /\ relief_found ts rp alpha pia ha hd pitch /\
    (forall tooth, involute_undercut_tooth ts rp alpha pia 0 pitch (Some (mkLim ha hd)) = Ok tooth ->
       let rc := generate_reference_circles rp ha hd ho 0 rp in
       (tip_found sv tooth (rc_a rc) pitch /\ (forall n1, trim_tip sv tooth (rc_a rc) 0 pitch = Ok n1 -> root_found sv n1 (rc_d rc) pitch)) /\
       plane_sound fs tooth /\ forall g, exists x, fs_plane fs tooth UP g = (true, x)).
Proof.
  intros RL PIA HA (HS & HS2) ROOM. apply relief_solvable; try assumption. destruct (rl_al _ _ _ _ _ _ RL) as (A & C & B & TA). pose proof (rl_rp _ _ _ _ _ _ RL) as P.
  pose proof (rl_root _ _ _ _ _ _ RL) as RD. assert (SA : 0 < sin alpha) by (apply sin_gt_0; lra). assert (0 < rp * (sin alpha * sin alpha)) by (repeat apply Rmult_lt_0_compat; assumption).
  destruct (half_angle rp hd P ltac:(lra) RD) as (u & U & EU). apply (corner_cuts rp alpha pia hd u); try assumption.
  assert (SU : 0 < sin u) by (apply sin_gt_0; lra). apply cut_small; [exact A|]. split; [lra|]. destruct (Rle_dec u alpha) as [G|G]; [exact G|exfalso].
  assert (K : sin alpha < sin u) by (apply sin_increasing_1; lra). assert (sin alpha * sin alpha < sin u * sin u) by (apply Rmult_le_0_lt_compat; lra).
  assert (2 * rp * (sin alpha * sin alpha) < 2 * rp * (sin u * sin u)) by (apply Rmult_lt_compat_l; lra). lra.
Qed.

(** ** SpurGear with the default parameters and fewer than forty teeth *)
Lemma PI_31 : 31 / 10 < PI.
Proof.
  pose proof PI_3. set (x := PI / 12). assert (E : cos (2 * x) = sqrt 3 / 2) by (replace (2 * x) with (PI / 6) by (unfold x; field); apply cos_PI6).
  rewrite cos_2a_sin in E. assert (SX : sin x < x) by (apply sin_lt_x; unfold x; lra).
  assert (S3 : sqrt 3 < 17321 / 10000) by (apply sqrt_bound_up; lra).
  assert (2587 / 10000 < sin x). { assert (0 < sin x) by (apply sin_gt_0; unfold x; lra). apply sq_lt; lra. }
  unfold x in *. lra.
Qed.
Lemma tan20 : 36 / 100 < tan (20 * PI / 180) < 384 / 1000 /\ 1164 / 10000 < sin (20 * PI / 180) * sin (20 * PI / 180).
Proof.
  destruct cos20 as ((C0 & C1) & S0 & S1). set (a := 20 * PI / 180) in *. pose proof (sc1 a) as S.
  assert (cos a * cos a < 94 / 100 * (94 / 100)) by (apply Rmult_le_0_lt_compat; lra).
  assert (S2 : 34 / 100 < sin a) by (apply sq_lt; lra).
  split; [|lra]. unfold tan. split; apply Rmult_lt_reg_r with (cos a); try lra; replace (sin a / cos a * cos a) with (sin a) by (field; lra); lra.
Qed.

Section Small.
  Variables (n : Z) (height : R) (center : vec) (angle module zanchor : R).
  Hypothesis N : (10 <= n <= 39)%Z.
  Let g := default_spur n height center angle module zanchor.
  Let rp := IZR n / 2.
  Let al := 20 * PI / 180.
  Let pia := PI / (2 * IZR n).
  Let q := corner_side rp al pia (6 / 5).

  Lemma sm_n : 10 <= IZR n <= 39. Proof. split; apply IZR_le; lia. Qed.
  Lemma sm_normal : ig_in g = mkIP (IZR n) height 0 0 center angle module true 0 0 (1 / 10) 0 1 (6 / 5) al 0 0 false zanchor.
  Proof. pose proof sm_n. unfold g, default_spur, ig_new, ip_normalise. cbn [ip_teeth]. destruct (Rlt_dec _ _); [lra|reflexivity]. Qed.
  Lemma sm_core : ig_core g = calc_params (mkIP (IZR n) height 0 0 center angle module true 0 0 (1 / 10) 0 1 (6 / 5) al 0 0 false zanchor).
  Proof. pose proof sm_n. unfold g, default_spur, ig_new, ip_normalise. cbn [ip_teeth]. destruct (Rlt_dec _ _); [lra|reflexivity]. Qed.
  Lemma sm_k : k_ha (ig_core g) = 1 /\ k_hd (ig_core g) = 6 / 5 /\ k_alpha (ig_core g) = al /\ (forall z, ig_pia g z = pia) /\ length (k_zvals (ig_core g)) = 2%nat.
  Proof.
    pose proof sm_n. rewrite sm_core. split; [cbn; ring|]. split; [cbn; field|]. split; [reflexivity|]. split; [|reflexivity].
    intros z. unfold ig_pia, crowning. rewrite sm_normal, sm_core. cbn [calc_params k_tooth_angle ip_crown ip_height k_rp ip_teeth ip_shift ip_alpha ip_backlash].
    unfold pia. unfold Rdiv. rewrite !Rmult_0_l, !Rmult_0_r, !Rmult_0_l. field. lra.
  Qed.
  Lemma sm_cyl : cyl_gear g n.
  Proof. apply (C116_kinds (mkIP (IZR n) height 0 0 center angle module true 0 0 (1 / 10) 0 1 (6 / 5) al 0 0 false zanchor) n); try reflexivity; lia. Qed.

  Lemma sm_al : 0 < al < PI / 2 /\ 0 < inv al < 1 / 10 /\ pia * IZR n = PI / 2 /\ 0 < pia <= 1 / 5 /\ rp - 6 / 5 <= rp * cos al /\ q = PI / 4 + 6 / 5 * tan al.
  Proof.
    pose proof sm_n. pose proof PI_31. pose proof PI_4. destruct tan20 as ((T0 & T1) & _). fold al in T0, T1.
    assert (A : 0 < al < PI / 2) by (unfold al; lra). split; [exact A|]. split.
    - split.
      + pose proof (inv_strict 0 al ltac:(lra) ltac:(lra) ltac:(lra)) as K. rewrite inv_0 in K. exact K.
      + unfold inv. unfold al in *. lra.
    - assert (EP : pia * IZR n = PI / 2) by (unfold pia; field; lra). split; [exact EP|]. split; [|split].
      + assert (0 < pia) by (unfold pia; apply Rdiv_lt_0_compat; lra). split; [assumption|].
        assert (pia * 10 <= pia * IZR n) by (apply Rmult_le_compat_l; lra). lra.
      + destruct (Rle_dec (rp - 6 / 5) (rp * cos al)) as [G|G]; [exact G|exfalso]. assert (K : rp * cos al < rp - 6 / 5) by lra. apply C120_threshold in K; lia.
      + unfold q, corner_side, rp. replace (IZR n / 2 * pia) with (pia * IZR n / 2) by field. rewrite EP. field.
  Qed.

  Lemma sm_tip h : 0 <= h <= 11 / 10 -> flank_angle rp al pia (rp + h) <= - ((155 / 100 - 1365 / 1000 * h) / IZR n).
  Proof.
    intros H. pose proof sm_n as NN. destruct sm_al as (A & I & P1 & _ & _). destruct cos20 as ((C0 & C1) & S0 & S1). fold al in C0, C1, S0, S1. pose proof PI_31.
    assert (P : 5 <= rp) by (unfold rp; lra).
    assert (B : rp * cos al <= rp * 1) by (apply Rmult_le_compat_l; lra).
    assert (EA : exists b, 0 <= b < PI / 2 /\ cos b = rp * cos al / (rp + h) /\ flank_angle rp al pia (rp + h) = inv b - inv al - pia).
    { destruct (pressure_range rp al (rp + h) ltac:(lra) ltac:(lra) ltac:(lra)) as (AA & CA). exists (acos (Rmin 1 (rp * cos al / (rp + h)))). split; [exact AA|]. split; [|reflexivity].
      rewrite CA. apply Rmin_right. apply Rmult_le_reg_r with (rp + h); [lra|]. unfold Rdiv. rewrite Rmult_assoc, Rinv_l by lra. lra. }
    destruct EA as (b & BB & CB & ->).
    assert (CBP : 769 / 1000 <= cos b).
    { rewrite CB. apply Rmult_le_reg_r with (rp + h); [lra|]. unfold Rdiv. rewrite (Rmult_assoc (rp * cos al)), Rinv_l, Rmult_1_r by lra.
      assert (rp * (9385 / 10000) <= rp * cos al) by (apply Rmult_le_compat_l; lra). lra. }
    assert (L : al <= b).
    { destruct (Rle_dec al b) as [G|G]; [exact G|exfalso]. assert (K : cos al < cos b) by (apply cos_decreasing_1; lra). rewrite CB in K.
      apply (Rmult_lt_compat_r (rp + h)) in K; [|lra]. unfold Rdiv in K. rewrite (Rmult_assoc (rp * cos al)), Rinv_l, Rmult_1_r in K by lra.
      assert (0 <= cos al * h) by (apply Rmult_le_pos; lra). lra. }
    pose proof (inv_diff al b ltac:(lra) L ltac:(lra)) as D.
    assert (ED : / cos b - / cos al = h / (rp * cos al)). { rewrite CB. field. lra. }
    rewrite ED in D.
    assert (SB : 0 <= sin b <= 64 / 100).
    { assert (0 <= sin b) by (apply sin_ge_0; lra). split; [assumption|]. pose proof (sc1 b) as Q.
      assert (769 / 1000 * (769 / 1000) <= cos b * cos b) by (apply Rmult_le_compat; lra). apply Rsqr_incr_0; unfold Rsqr; lra. }
    assert (D2 : inv b - inv al <= 1365 / 1000 * h / IZR n).
    { eapply Rle_trans; [exact D|]. apply Rmult_le_reg_r with (IZR n); [lra|]. unfold rp in *. replace (sin b * (h / (IZR n / 2 * cos al)) * IZR n) with (h * (2 * sin b / cos al)) by (field; lra).
      replace (1365 / 1000 * h / IZR n * IZR n) with (h * (1365 / 1000)) by (field; lra). apply Rmult_le_compat_l; [lra|].
      apply Rmult_le_reg_r with (cos al); [lra|]. replace (2 * sin b / cos al * cos al) with (2 * sin b) by (field; lra). lra. }
    assert (P2 : 155 / 100 / IZR n <= pia). { apply Rmult_le_reg_r with (IZR n); [lra|]. replace (155 / 100 / IZR n * IZR n) with (155 / 100) by (field; lra). lra. }
    unfold Rdiv in *. lra.
  Qed.

  Lemma sm_relieved : relieved rp al pia 1 (6 / 5) (2 * PI / IZR n).
  Proof.
    pose proof sm_n as NN. destruct sm_al as (A & I & P1 & P2 & BR & Q). pose proof PI_31. pose proof PI_4. destruct tan20 as ((T0 & T1) & _). fold al in T0, T1.
    assert (IN : 0 < / IZR n) by (apply Rinv_0_lt_compat; lra). pose proof (sm_tip 1 ltac:(lra)) as T.
    assert (EP : 2 * PI / IZR n = 4 * pia) by (unfold pia; field; lra).
    split; fold q; try (unfold rp; lra); try lra.
    - unfold al. lra.
    - replace (rp * (2 * PI / IZR n) / 2) with (PI / 2) by (unfold rp; field; lra). lra.
    - assert (q * q <= 15 / 10 * (15 / 10)) by (apply Rmult_le_compat; lra). unfold rp. lra.
  Qed.

  Lemma sm_sin x : 15 / 100 / IZR n <= x <= 1 -> 1 / 10 / IZR n <= sin x.
  Proof.
    pose proof sm_n as NN. assert (IN : 0 < / IZR n) by (apply Rinv_0_lt_compat; lra). pose proof PI_3.
    intros X. pose proof (IndexProps.sin_lower x) as L. assert (X0 : 0 <= 15 / 100 / IZR n) by (unfold Rdiv; apply Rmult_le_pos; lra).
    assert (SX : 0 <= sin x) by (apply sin_ge_0; lra). rewrite (Rabs_right x), (Rabs_right (sin x)) in L by lra. unfold Rdiv in X. eapply Rle_trans; [|exact L].
    assert (0 <= x * x <= 1) by nra. apply Rle_trans with (x * (5 / 6)); [unfold Rdiv; lra|]. apply Rmult_le_compat_l; lra.
  Qed.

  (** What the searches have to find. *)
  Definition small_searches (sv : solver) (fs : fsolver) (ts : tsolver) (m : Z) : Prop :=
    let r := IZR m / 2 in let a := 20 * PI / 180 in let p := PI / (2 * IZR m) in let pitch := 2 * PI / IZR m in
    solved ts r a /\ top_found ts r a p /\ relief_found ts r a p 1 (6 / 5) pitch /\
    forall tooth, involute_undercut_tooth ts r a p 0 pitch (Some (mkLim 1 (6 / 5))) = Ok tooth ->
      let rc := generate_reference_circles r 1 (6 / 5) (k_ho (ig_core g)) 0 r in
      (tip_found sv tooth (rc_a rc) pitch /\ (forall n1, trim_tip sv tooth (rc_a rc) 0 pitch = Ok n1 -> root_found sv n1 (rc_d rc) pitch)) /\
      plane_sound fs tooth.

  (** The gear meets the premises of C121_involute and C121_part. *)
  Lemma sm_gear sv fs ts : small_searches sv fs ts n -> let k := ig_core g in
    relief_gear sv fs ts g n 0 /\
    / 10000000000 < 2 * (rp + k_ha k) * sin (- flank_angle rp (k_alpha k) (ig_pia g 0) (rp + k_ha k)) /\
    / 10000000000 < 2 * (rp - k_hd k) * sin (2 * PI / IZR n / 2 + lowest rp (k_alpha k) (ig_pia g 0) (k_hd k)) /\
    DELTA / 100 <= 2 * (rp - k_hd k) * sin (PI / IZR n).
  Proof.
    intros (S & T & RF & CUT). fold rp al pia in S, T, RF, CUT. pose proof sm_n as NN. destruct sm_al as (A & I & P1 & P2 & BR & Q). pose proof PI_31. pose proof PI_4. destruct tan20 as ((T0 & T1) & _). fold al in T0, T1.
    destruct sm_k as (EA & ED & EAL & EP & EZ). pose proof sm_relieved as RL. pose proof sm_cyl as CG.
    assert (IN : 0 < / IZR n) by (apply Rinv_0_lt_compat; lra). assert (IN1 : / IZR n <= / 10) by (apply Rinv_le_contravar; lra). assert (E1 : IZR n * / IZR n = 1) by (field; lra).
    assert (EG : ig_tooth ts g 0 = involute_undercut_tooth ts rp al pia 0 (2 * PI / IZR n) (Some (mkLim 1 (6 / 5)))).
    { unfold ig_tooth. rewrite EA, ED, EAL, EP, (cg_cone _ _ CG), (cg_rp _ _ CG), (cg_teeth _ _ CG), sm_normal. cbn [ip_undercut]. destruct (Req_EM_T 0 0); [reflexivity|contradiction]. }
    assert (RG : relief_gear sv fs ts g n 0).
    { split; rewrite ?EA, ?ED, ?EAL, ?EP, ?EG; rewrite ?sm_normal; cbn [ip_undercut ip_tip_fillet ip_root_fillet ip_tip_trunc]; fold rp; try reflexivity; try assumption.
      - intros tooth K. apply CUT, K.
      - intros _. fold q. split; [lra|]. split; [lra|]. split; [|intros tooth K; apply CUT, K].
        pose proof (sm_tip (1 + 1 / 10) ltac:(lra)) as TT. rewrite <- Rplus_assoc in TT. unfold Rdiv in *. lra. }
    assert (LOW : lowest rp al pia (6 / 5) = - (2 * q / IZR n)) by (unfold lowest; fold q; unfold rp; field; lra).
    cbv zeta. split; [exact RG|]. split; [|split].
    - rewrite EA, EAL, EP. fold rp. pose proof (rl_angle _ _ _ _ _ _ (rp + 1) RL ltac:(unfold rp; lra)) as LO. pose proof (sm_tip 1 ltac:(lra)) as TT.
      assert (LO2 : - 1 <= flank_angle rp al pia (rp + 1)). { assert (2 * PI / IZR n / 2 = 2 * pia) by (unfold pia; field; lra). lra. }
      pose proof (sm_sin (- flank_angle rp al pia (rp + 1)) ltac:(unfold Rdiv in *; lra)) as SL.
      apply Rlt_le_trans with (IZR n * (1 / 10 / IZR n)); [unfold Rdiv; replace (IZR n * (1 * / 10 * / IZR n)) with (/ 10 * (IZR n * / IZR n)) by ring; rewrite E1; lra|].
      apply Rmult_le_compat; try (unfold rp; lra). unfold Rdiv. lra.
    - rewrite ED, EAL, EP. fold rp. rewrite LOW.
      assert (EX : 2 * PI / IZR n / 2 + - (2 * q / IZR n) = (PI - 2 * q) * / IZR n) by (field; lra). rewrite EX.
      pose proof (sm_sin ((PI - 2 * q) * / IZR n)) as SL. assert (B1 : 6 / 10 * / IZR n <= (PI - 2 * q) * / IZR n) by (apply Rmult_le_compat_r; lra).
      assert (B2 : (PI - 2 * q) * / IZR n <= 4 * / IZR n) by (apply Rmult_le_compat_r; lra). specialize (SL ltac:(unfold Rdiv in *; lra)).
      apply Rlt_le_trans with (IZR n / 2 * (1 / 10 / IZR n)); [unfold Rdiv; replace (IZR n * / 2 * (1 * / 10 * / IZR n)) with (/ 20 * (IZR n * / IZR n)) by (field; lra); rewrite E1; lra|].
      apply Rmult_le_compat; [unfold rp; lra|unfold Rdiv; lra|unfold rp; lra|exact SL].
    - rewrite ED. fold rp. pose proof (sm_sin (PI / IZR n)) as SL. assert (B1 : 3 * / IZR n <= PI * / IZR n) by (apply Rmult_le_compat_r; lra).
      assert (B2 : PI * / IZR n <= 4 * / IZR n) by (apply Rmult_le_compat_r; lra). specialize (SL ltac:(unfold Rdiv in *; lra)).
      apply Rle_trans with (IZR n / 2 * (1 / 10 / IZR n)); [unfold Rdiv; replace (IZR n * / 2 * (1 * / 10 * / IZR n)) with (/ 20 * (IZR n * / IZR n)) by (field; lra); rewrite E1; unfold DELTA; lra|].
      apply Rmult_le_compat; [unfold rp; lra|unfold Rdiv; lra|unfold rp; lra|exact SL].
  Qed.

  (** build_part() succeeds and the skin of the part is closed; the flanks start on the root circle of radius n/2 - 1.2, follow the path of
      the corner of the rack and then the involute, and end on the tip circle of radius n/2 + 1. *)
  Theorem C121_default sv fs ts mid optC optS : small_searches sv fs ts n ->
    exists t c, build_part sv fs ts mid optC optS (as_hgear g) = Ok c /\ paired (all_edges c) /\ length (cy_sides c) = (Z.to_nat n * 6)%nat /\
      n_point t 0 = circle_pt (rp - 6 / 5) (lowest rp al pia (6 / 5)) /\ n_point t 1 = flank_point rp al pia (rp + 1) /\
      (forall s, 0 <= s <= 1 -> (exists x, x <= lowest rp al pia (6 / 5) /\ n_point t s = corner_path rp al pia (6 / 5) x) \/
         exists r, rp * cos al < r <= rp + 1 /\ n_point t s = flank_point rp al pia r) /\
      toothed sv fs ts g n 0 t.
  Proof.
    intros SS. destruct (sm_gear sv fs ts SS) as (RG & B1 & B2 & B3). destruct sm_k as (EA & ED & EAL & EP & EZ).
    destruct (C121_part sv fs ts mid optC optS g n sm_cyl) as (t & c & EB & PA & LC & TD & P0 & PT1 & PTS); try assumption.
    - rewrite sm_normal. reflexivity.
    - rewrite sm_normal. reflexivity.
    - rewrite EZ. lia.
    - cbv zeta in LC, P0, PT1, PTS. rewrite ?EA, ?ED, ?EAL, ?EP, ?EZ in *. exists t, c. split; [exact EB|]. split; [exact PA|]. split; [rewrite LC; lia|].
      split; [exact P0|]. split; [exact PT1|]. split; [exact PTS|exact TD].
  Qed.

  (** Searches with such answers exist: from twenty-one teeth on the corner touches the involute, below that it cuts into it. *)
  Theorem C121_default_solvable : exists sv fs ts, small_searches sv fs ts n.
  Proof.
    pose proof sm_n as NN. destruct sm_al as (A & I & P1 & P2 & BR & Q). pose proof PI_31. pose proof PI_4. destruct tan20 as ((T0 & T1) & T2). fold al in T0, T1, T2.
    assert (P : 5 <= rp) by (unfold rp; lra).
    destruct (relief_solvable rp al pia 1 (6 / 5) (k_ho (ig_core g)) (2 * PI / IZR n) sm_relieved) as (sv & fs & ts & S & T & RF & K).
    - lra.
    - lra.
    - fold q. assert (sqrt (rp * rp - (rp - 6 / 5) * (rp - 6 / 5)) <= rp - 147 / 100); [|lra].
      rewrite <- (sqrt_square (rp - 147 / 100)) by lra. apply sqrt_le_1_alt. assert (5 * rp <= rp * rp) by (apply Rmult_le_compat_r; lra).
      assert (0 <= (rp - 5) * (rp - 5)) by apply Rle_0_sqr. lra.
    - destruct (Z_le_gt_dec 21 n) as [N2|N2].
      + apply IZR_le in N2. assert (HS : 6 / 5 < rp * (sin al * sin al)).
        { apply Rlt_le_trans with (105 / 10 * (1164 / 10000)); [lra|]. apply Rmult_le_compat; unfold rp; lra. }
        apply corner_reached; try assumption; lra.
      + assert (N3 : (n <= 20)%Z) by lia. apply IZR_le in N3. destruct cos20 as ((C0 & C1) & S0 & S1). fold al in C0, C1, S0, S1. pose proof (sc1 al) as SC.
        assert (9385 / 10000 * (9385 / 10000) < cos al * cos al) by (apply Rmult_le_0_lt_compat; lra).
        destruct (half_angle rp (6 / 5) ltac:(lra) ltac:(lra) ltac:(lra)) as (u & U & EU). assert (HS : rp * (sin al * sin al) < 6 / 5).
        { apply Rle_lt_trans with (10 * (1193 / 10000)); [|lra]. apply Rmult_le_compat; unfold rp; lra. }
        apply (corner_cuts rp al pia (6 / 5) u); try assumption; [lra|lra|].
        assert (SU : 0 < sin u) by (apply sin_gt_0; lra). assert (S2 : sin u * sin u <= 12 / 100).
          { assert (5 * (2 * (sin u * sin u)) <= rp * (2 * (sin u * sin u))) by (apply Rmult_le_compat_r; [assert (0 <= sin u * sin u) by apply Rle_0_sqr; lra|lra]). lra. }
        apply Rlt_le_trans with (sin u * cos u + sin u * sin u * (36 / 100)); [apply cut_bound; [lra|]|apply Rplus_le_compat_l, Rmult_le_compat_l; [apply Rle_0_sqr|lra]].
          left. apply sq_lt; lra.
    - exists sv, fs, ts. split; [exact S|]. split; [exact T|]. split; [exact RF|]. intros tooth E. destruct (K tooth E) as (K1 & K2 & _). split; assumption.
  Qed.
End Small.

(** ** Examples: SpurGear(30) *)
Example C121_default_solvable_example : exists sv fs ts, small_searches 30 1 ORIGIN 0 1 0 sv fs ts 30.
Proof. apply C121_default_solvable. lia. Qed.
Example C121_default_example : exists sv fs ts, forall mid optC optS, exists c,
  build_part sv fs ts mid optC optS (as_hgear (default_spur 30 1 ORIGIN 0 1 0)) = Ok c /\ paired (all_edges c) /\ length (cy_sides c) = 180%nat.
Proof.
  destruct C121_default_solvable_example as (sv & fs & ts & SS). exists sv, fs, ts. intros mid optC optS.
  destruct (C121_default 30 1 ORIGIN 0 1 0 ltac:(lia) sv fs ts mid optC optS SS) as (t & c & E & PA & L & _). exists c. auto.
Qed.
Example relieved_example : relieved 15 (20 * PI / 180) (PI / 60) 1 (6 / 5) (2 * PI / 30).
Proof. pose proof (sm_relieved 30 ltac:(lia)) as K. replace (30 / 2) with 15 in K by field. replace (2 * 30) with 60 in K by ring. exact K. Qed.
Example C121_solvable_example : exists sv fs ts, solved ts 15 (20 * PI / 180) /\ top_found ts 15 (20 * PI / 180) (PI / 60) /\
  relief_found ts 15 (20 * PI / 180) (PI / 60) 1 (6 / 5) (2 * PI / 30) /\
  (forall tooth, involute_undercut_tooth ts 15 (20 * PI / 180) (PI / 60) 0 (2 * PI / 30) (Some (mkLim 1 (6 / 5))) = Ok tooth ->
     let rc := generate_reference_circles 15 1 (6 / 5) 2 0 15 in
     (tip_found sv tooth (rc_a rc) (2 * PI / 30) /\ (forall n1, trim_tip sv tooth (rc_a rc) 0 (2 * PI / 30) = Ok n1 -> root_found sv n1 (rc_d rc) (2 * PI / 30))) /\
     plane_sound fs tooth /\ forall g, exists x, fs_plane fs tooth UP g = (true, x)).
Proof.
  pose proof PI_31. pose proof PI_4. destruct tan20 as ((T0 & T1) & T2). apply C121_solvable; [apply relieved_example| | | |].
  - assert (0 < inv (20 * PI / 180) < 1 / 10) by apply (sm_al 30 ltac:(lia)). lra.
  - lra.
  - lra.
  - unfold corner_side. assert (sqrt (15 * 15 - (15 - 6 / 5) * (15 - 6 / 5)) < 6) by (apply sqrt_bound_up; lra). lra.
Qed.
Example C121_tooth_example : exists ts tooth un post, involute_undercut_tooth ts 15 (20 * PI / 180) (PI / 60) 0 (2 * PI / 30) (Some (mkLim 1 (6 / 5))) = Ok tooth /\
  relief_tooth 15 (20 * PI / 180) (PI / 60) 1 (6 / 5) tooth un post.
Proof.
  destruct C121_solvable_example as (sv & fs & ts & S & T & RF & _). destruct (C121_tooth ts _ _ _ _ _ _ relieved_example S T RF) as (tooth & un & post & E & RT & _).
  exists ts, tooth, un, post. auto.
Qed.
Example C121_flank_example : exists sv ts tooth t, involute_undercut_tooth ts 15 (20 * PI / 180) (PI / 60) 0 (2 * PI / 30) (Some (mkLim 1 (6 / 5))) = Ok tooth /\
  trim_flank sv tooth (generate_reference_circles 15 1 (6 / 5) 2 0 15) 0 0 (2 * PI / 30) = Ok t /\
  n_point t 0 = circle_pt (15 - 6 / 5) (lowest 15 (20 * PI / 180) (PI / 60) (6 / 5)) /\ n_point t 1 = flank_point 15 (20 * PI / 180) (PI / 60) (15 + 1) /\ length (leaves t) = 2%nat.
Proof.
  destruct C121_solvable_example as (sv & fs & ts & S & T & RF & K). destruct (C121_flank sv ts _ _ _ _ _ 2 15 _ relieved_example S T RF) as (tooth & E & F).
  destruct (K tooth E) as ((K1 & K2) & _). destruct (F K1 K2) as (t & A1 & _ & _ & _ & A2 & A3 & _ & _ & A4). exists sv, ts, tooth, t. auto.
Qed.
(** The premises of C121_involute and of C121_part hold of SpurGear(30), so that their conclusions do. *)
Example C121_part_example : let g := default_spur 30 1 ORIGIN 0 1 0 in exists sv fs ts, cyl_gear g 30 /\ relief_gear sv fs ts g 30 0 /\
  ip_crown (ig_in g) = 0 /\ ip_helix (ig_in g) = 0 /\ length (k_zvals (ig_core g)) = 2%nat /\
  forall mid optC optS, exists t c, build_part sv fs ts mid optC optS (as_hgear g) = Ok c /\ paired (all_edges c) /\ toothed sv fs ts g 30 0 t.
Proof.
  intros g. destruct C121_default_solvable_example as (sv & fs & ts & SS). exists sv, fs, ts. assert (N : (10 <= 30 <= 39)%Z) by lia.
  destruct (sm_gear 30 1 ORIGIN 0 1 0 N sv fs ts SS) as (RG & B1 & B2 & B3). pose proof (sm_cyl 30 1 ORIGIN 0 1 0 N) as CG. fold g in RG, B1, B2, B3, CG.
  assert (NM : ip_crown (ig_in g) = 0 /\ ip_helix (ig_in g) = 0) by (unfold g; rewrite (sm_normal 30 1 ORIGIN 0 1 0 N); split; reflexivity). destruct NM as (CR & HX).
  destruct (sm_k 30 1 ORIGIN 0 1 0 N) as (_ & _ & _ & _ & EZ). fold g in EZ. repeat (split; [assumption|]). intros mid optC optS.
  destruct (C121_part sv fs ts mid optC optS g 30 CG CR HX ltac:(rewrite EZ; lia) RG B1 B2 B3) as (t & c & EB & PA & _ & TD & _). exists t, c. auto.
Qed.
Example C121_involute_example : let g := default_spur 30 1 ORIGIN 0 1 0 in exists sv fs ts t, relief_gear sv fs ts g 30 0 /\ toothed sv fs ts g 30 0 t /\
  length (leaves t) = 2%nat.
Proof.
  intros g. destruct C121_default_solvable_example as (sv & fs & ts & SS). assert (N : (10 <= 30 <= 39)%Z) by lia.
  destruct (sm_gear 30 1 ORIGIN 0 1 0 N sv fs ts SS) as (RG & B1 & B2 & B3). pose proof (sm_cyl 30 1 ORIGIN 0 1 0 N) as CG. fold g in RG, B1, B2, B3, CG.
  destruct (C121_involute sv fs ts g 30 0 CG RG B1 B2 B3) as (t & TD & _ & _ & _ & _ & L). exists sv, fs, ts, t. auto.
Qed.
(** SpurGear(12), whose flanks the corner of the rack cuts into. *)
Example C121_solvable_cut_example : exists sv fs ts, solved ts 6 (20 * PI / 180) /\ top_found ts 6 (20 * PI / 180) (PI / 24) /\
  relief_found ts 6 (20 * PI / 180) (PI / 24) 1 (6 / 5) (2 * PI / 12) /\
  (forall tooth, involute_undercut_tooth ts 6 (20 * PI / 180) (PI / 24) 0 (2 * PI / 12) (Some (mkLim 1 (6 / 5))) = Ok tooth ->
     let rc := generate_reference_circles 6 1 (6 / 5) 2 0 6 in
     (tip_found sv tooth (rc_a rc) (2 * PI / 12) /\ (forall n1, trim_tip sv tooth (rc_a rc) 0 (2 * PI / 12) = Ok n1 -> root_found sv n1 (rc_d rc) (2 * PI / 12))) /\
     plane_sound fs tooth /\ forall g, exists x, fs_plane fs tooth UP g = (true, x)).
Proof.
  pose proof PI_31. pose proof PI_4. destruct tan20 as ((T0 & T1) & T2). destruct cos20 as ((C0 & C1) & S0 & S1).
  assert (RL : relieved 6 (20 * PI / 180) (PI / 24) 1 (6 / 5) (2 * PI / 12)).
  { pose proof (sm_relieved 12 ltac:(lia)) as K. replace (12 / 2) with 6 in K by field. replace (2 * 12) with 24 in K by ring. exact K. }
  apply C121_solvable_cut; [exact RL| | | |].
  - assert (0 < inv (20 * PI / 180) < 1 / 10) by apply (sm_al 12 ltac:(lia)). lra.
  - lra.
  - assert (sin (20 * PI / 180) * sin (20 * PI / 180) < 36 / 100 * (36 / 100)) by (apply Rmult_le_0_lt_compat; lra). lra.
  - unfold corner_side. assert (sqrt (6 * 6 - (6 - 6 / 5) * (6 - 6 / 5)) < 37 / 10) by (apply sqrt_bound_up; lra). lra.
Qed.
Example C121_default_example_cut : exists sv fs ts, forall mid optC optS, exists c,
  build_part sv fs ts mid optC optS (as_hgear (default_spur 12 1 ORIGIN 0 1 0)) = Ok c /\ paired (all_edges c) /\ length (cy_sides c) = 72%nat.
Proof.
  destruct (C121_default_solvable 12 1 ORIGIN 0 1 0 ltac:(lia)) as (sv & fs & ts & SS). exists sv, fs, ts. intros mid optC optS.
  destruct (C121_default 12 1 ORIGIN 0 1 0 ltac:(lia) sv fs ts mid optC optS SS) as (t & c & E & PA & L & _). exists c. auto.
Qed.
