(** Property C97: the lower end of a flank (check_lower_curve_limit).
    Property C98: the flanks of the default tooth generators.
    Property C93, C94: undercut of bevel gears. *)
From Coq Require Import Nsatz Reals Lra Psatz List Bool.
From Verif Require Import Num Vec Transform Params Coords CoordsProps Gen GenProps Interp Curve CurveLem CurveProps
  ArcLem ArcProps Chain ChainLem ChainProps GearLem MeshDistProps Profile ProfileLem ProfileProps Tooth Cycloid Teeth ConeFlankProps.
Import ListNotations.
Open Scope R_scope.

(** ** Planar gears *)
Lemma set_start_act c s : c_act (set_start_on c s) = c_act c.
Proof. unfold set_start_on. rewrite update_act. reflexivity. Qed.

Lemma two_leaves a b : c_act a = true -> c_act b = true -> fresh a -> fresh b ->
  leaves (new_chain true (map Prim (a :: b :: nil))) = a :: b :: nil.
Proof.
  intros A B FA FB. assert (L : leaves (Chain true (map Prim (a :: b :: nil))) = a :: b :: nil).
  { cbn. rewrite A, B. reflexivity. }
  unfold new_chain. rewrite update_id; [exact L|cbn; rewrite A; reflexivity|]. rewrite L.
  constructor; [exact FA|constructor; [exact FB|constructor]].
Qed.

(** C97: the flank keeps its upper end and stays joined.  If the crossing with the dedendum circle is found the flank
    starts there; otherwise it starts at the nearest point found or, if that is outside the dedendum circle, on the dedendum
    circle, with a straight line along the radius. *)
Theorem C97_plane ts rp pia lm c d : fresh c -> (2 <= c_ndiv c)%nat -> c_act c = true -> lm_hd lm < rp ->
  (forall s, vz (c_eval c s) = 0) ->
  let rd := rp - lm_hd lm in
  let circle := arc_curve rd (- pia * 2) ORIGIN 0 0 0 true in
  let a := ts_meet ts EQUALITY (Prim c) circle (/ 2) (/ 2) in
  let b := ts_meet ts MINDISTANCE (Prim c) circle (/ 2) (/ 2) in
  let l := leaves (plane_lower ts rp pia lm c) in
  l <> [] /\ joined l /\ c_eval (last l d) 1 = c_eval c 1 /\
  (fst (fst a) = true -> c_eval (hd d l) 0 = c_eval c (snd (fst a))) /\
  (fst (fst a) = false -> let p := c_eval c (snd (fst b)) in
     norm (c_eval (hd d l) 0) = Rmin rd (norm p) /\ exists k, 0 < k <= 1 /\ c_eval (hd d l) 0 = smul k p).
Proof.
  intros F N A H PL rd circle a b l. unfold l, plane_lower. fold rd circle. fold a. fold b. clearbody a b.
  destruct a as [[ok x0] x1]. destruct ok; cbn [fst snd].
  - destruct (C29_set_start_on c x0 F N) as (E0 & E1).
    cbn [leaves]. rewrite set_start_act, A. cbn [hd last]. split; [discriminate|]. split; [exact I|]. split; [exact E1|].
    split; [intros _; exact E0|intros K; discriminate].
  - destruct b as [[ok2 y0] y1]. cbn [fst snd]. destruct (C29_set_start_on c y0 F N) as (E0 & E1).
    set (c1 := set_start_on c y0) in *. assert (A1 : c_act c1 = true) by (unfold c1; rewrite set_start_act; exact A).
    assert (RP : 0 < rd) by (unfold rd; lra). rewrite E0. specialize (PL y0). set (p := c_eval c y0) in *.
    assert (NP : norm (V (vx p) (vy p) 0) = norm p) by (rewrite <- PL; destruct p; reflexivity). rewrite NP.
    assert (K : forall k, smul k (smul rd p) = smul (rd * k) p) by (intros; clearbody p; clear; vec_ring).
    destruct (Rlt_dec rd (norm p)) as [L|L].
    + set (ln := line_curve (smul (/ norm p) (smul rd p)) p true).
      change ([Prim ln; Prim c1]) with (map Prim (ln :: c1 :: nil)). rewrite two_leaves; [|reflexivity|exact A1|apply new_fresh|apply set_start_fresh].
      cbn [hd last joined]. split; [discriminate|]. split.
      { split; [|exact I]. unfold ln. rewrite line_eval, E0. clearbody p. clear. vec_ring. }
      split; [exact E1|]. split; [intros Q; discriminate|]. intros _.
      assert (S : c_eval ln 0 = smul (rd * / norm p) p).
      { unfold ln. rewrite line_eval, <- K. generalize (smul (/ norm p) (smul rd p)). clearbody p. clear. intros q. vec_ring. }
      rewrite S. assert (NN : 0 < norm p) by lra.
      assert (Q : 0 < rd * / norm p <= 1).
      { split; [apply Rmult_lt_0_compat; [exact RP|apply Rinv_0_lt_compat; exact NN]|].
        apply (Rmult_le_reg_r (norm p)); [exact NN|]. rewrite Rmult_assoc, Rinv_l, Rmult_1_r, Rmult_1_l by lra. lra. }
      split; [|exists (rd * / norm p); split; [exact Q|reflexivity]].
      rewrite norm_smul, Rabs_right by lra. rewrite Rmin_left by lra. field. lra.
    + cbn [leaves]. rewrite A1. cbn [hd last]. split; [discriminate|]. split; [exact I|]. split; [exact E1|].
      split; [intros Q; discriminate|]. intros _. rewrite E0. rewrite Rmin_right by lra. split; [reflexivity|].
      exists 1. split; [lra|]. clearbody p. clear. vec_ring.
Qed.

(** ** Bevel gears *)
Definition lower_normal (rp cone : R) (lm : limits) : vec := mapp (roty (PI / 2 - cone / 2 + lm_hd lm / sphere_R rp cone)) OUT.
Definition lower_apex (rp cone : R) : vec := smul (sphere_R rp cone * cos (cone / 2)) OUT.

Lemma lower_apex_eq rp cone : 0 < rp -> 0 < cone < PI -> lower_apex rp cone = cone_apex rp (cone / 2).
Proof.
  intros R0 B. assert (S : 0 < sin (cone / 2)) by (apply sin_gt_0; lra). assert (C : 0 < cos (cone / 2)) by (apply cos_gt_0; lra).
  unfold lower_apex, cone_apex, sphere_R, tan. f_equal. rewrite Rabs_right by (apply Rle_ge, Rlt_le, Rdiv_lt_0_compat; assumption).
  field. lra.
Qed.

(** C97: if the crossing is found, the flank starts there. *)
Theorem C97_cone_found ts rp cone lm c : fresh c -> (2 <= c_ndiv c)%nat -> c_act c = true ->
  let a := ts_plane ts EQUALITY (Prim c) (lower_normal rp cone lm) (lower_apex rp cone) 0 in
  fst a = true -> exists f, cone_lower ts rp cone lm c = Prim f /\ c_eval f 0 = c_eval c (snd a) /\ c_eval f 1 = c_eval c 1.
Proof.
  intros F N A a K. exists (set_start_on c (snd a)). destruct (C29_set_start_on c (snd a) F N) as (E0 & E1).
  split; [|split; assumption]. unfold cone_lower. fold (lower_normal rp cone lm). fold (lower_apex rp cone). fold a.
  clearbody a. destruct a as [ok x]. cbn in K. subst ok. reflexivity.
Qed.

(** The dedendum cone has half angle [cone / 2 - h_d / R].  The crossing searched for is with a plane that touches this
    cone in the middle plane of the tooth only: elsewhere the flank stops above the dedendum cone. *)
Definition cone_depth (rp cone delta : R) (p : vec) : R :=
  let q := vsub p (cone_apex rp (cone / 2)) in sqrt (vx q * vx q + vy q * vy q) * cos delta + vz q * sin delta.
Theorem C97_cone_depth rp cone lm p : 0 < rp -> 0 < cone < PI ->
  let delta := cone / 2 - lm_hd lm / sphere_R rp cone in 0 <= delta < PI / 2 ->
  vz p <= vz (cone_apex rp (cone / 2)) ->
  dot (vsub p (lower_apex rp cone)) (lower_normal rp cone lm) = 0 ->
  0 <= cone_depth rp cone delta p /\ (cone_depth rp cone delta p = 0 <-> vy p = 0).
Proof.
  intros R0 B delta D Z E. rewrite lower_apex_eq in E by assumption. unfold lower_normal in E.
  replace (PI / 2 - cone / 2 + lm_hd lm / sphere_R rp cone) with (PI / 2 - delta) in E by (unfold delta; ring).
  assert (C : 0 < cos delta) by (apply cos_gt_0; lra). assert (S : 0 <= sin delta) by (apply sin_ge_0; lra).
  unfold cone_depth, cone_apex in *. clearbody delta. revert Z E. generalize (rp / tan (cone / 2)). intros h. destruct p as [x y z].
  cbv zeta. vec_simpl. rewrite !cos_shift, !sin_shift. replace (x - h * 0) with x by ring. replace (y - h * 0) with y by ring.
  replace (z - h * 1) with (z - h) by ring. intros Z E.
  assert (X : x * cos delta = - (z - h) * sin delta) by lra.
  assert (X0 : 0 <= x).
  { apply (Rmult_le_reg_r (cos delta)); [exact C|]. rewrite X, Rmult_0_l. apply Rmult_le_pos; lra. }
  replace ((z - h) * sin delta) with (- (x * cos delta)) by lra.
  assert (Y : 0 <= y * y) by apply Rle_0_sqr.
  assert (Q : sqrt (x * x) <= sqrt (x * x + y * y)) by (apply sqrt_le_1; [apply Rle_0_sqr| |]; assert (0 <= x * x) by apply Rle_0_sqr; lra).
  rewrite sqrt_square in Q by exact X0. split.
  - assert (0 <= (sqrt (x * x + y * y) - x) * cos delta) by (apply Rmult_le_pos; lra). lra.
  - split.
    + intros K. assert (K1 : (sqrt (x * x + y * y) - x) * cos delta = 0) by lra. apply Rmult_integral in K1.
      destruct K1 as [K1|K1]; [|lra]. assert (K2 : sqrt (x * x + y * y) = x) by lra.
      assert (K3 : x * x + y * y = x * x).
      { transitivity (sqrt (x * x + y * y) * sqrt (x * x + y * y)); [|rewrite K2; reflexivity]. symmetry. apply sqrt_sqrt.
        assert (0 <= x * x) by apply Rle_0_sqr. lra. }
      assert (y * y = 0) by lra. destruct (Rmult_integral _ _ H); assumption.
    + intros ->. rewrite Rmult_0_l, Rplus_0_r, sqrt_square by exact X0. lra.
Qed.

(** If no crossing is found, an arc about the apex is put below the start of the flank.  The flank stays joined and keeps its
    upper end, and the arc stays on the sphere of the start point. *)
Lemma connector_eval p ce angle s : cross UP (vsub p ce) <> ORIGIN ->
  let x := normalize (vsub p ce) in
  c_eval (from_point_center_angle p ce angle UP true) s =
  vadd (smul (norm (vsub p ce)) (vadd (smul (cos (angle * s)) x) (smul (sin (angle * s)) (normalize (cross UP x))))) ce /\
  dot x x = 1 /\ dot (normalize (cross UP x)) (normalize (cross UP x)) = 1 /\ dot x (normalize (cross UP x)) = 0.
Proof.
  intros C x. assert (D : vsub p ce <> ORIGIN) by (intros E; apply C; rewrite E; clear; vec_ring).
  assert (X : dot x x = 1) by (apply normalize_dot, D).
  assert (CX : cross UP x <> ORIGIN).
  { intros E. apply C. rewrite (normalize_eq _ D). fold x. set (n := norm (vsub p ce)).
    transitivity (smul n (cross UP x)); [clearbody n x; clear; vec_ring|]. rewrite E. clear. vec_ring. }
  assert (Y : dot (normalize (cross UP x)) (normalize (cross UP x)) = 1) by (apply normalize_dot, CX).
  assert (XY : dot x (normalize (cross UP x)) = 0).
  { unfold normalize at 1. rewrite dot_smul_r, dot_cross_r. ring. }
  split; [|split; [exact X|split; [exact Y|exact XY]]].
  unfold from_point_center_angle. fold x. rewrite arc_frame_eval; [reflexivity|]. apply frame_rotation; assumption.
Qed.

Lemma connector_shape p ce angle : cross UP (vsub p ce) <> ORIGIN ->
  exists m, c_shape (from_point_center_angle p ce angle UP true) = SArc (norm (vsub p ce)) angle ce m.
Proof. intros _. unfold from_point_center_angle, arc_from_frame. destruct (as_euler_zyx _) as [[u v] w]. eexists. reflexivity. Qed.
Lemma connector_new p ce angle : exists m, from_point_center_angle p ce angle UP true = new_curve (SArc (norm (vsub p ce)) angle ce m) true 0 1 NDIV.
Proof. unfold from_point_center_angle, arc_from_frame. destruct (as_euler_zyx _) as [[u v] w]. eexists. reflexivity. Qed.

Theorem C97_cone_missed ts rp cone lm c : fresh c -> (2 <= c_ndiv c)%nat -> c_act c = true ->
  fst (ts_plane ts EQUALITY (Prim c) (lower_normal rp cone lm) (lower_apex rp cone) 0) = false ->
  let p := c_eval c (snd (ts_plane ts MINDISTANCE (Prim c) (lower_normal rp cone lm) (lower_apex rp cone) 0)) in
  let A := Rabs (angle_to_plane p OUT - (PI / 2 - cone / 2 + lm_hd lm / sphere_R rp cone)) in
  cross UP (vsub p (lower_apex rp cone)) <> ORIGIN ->
  exists conn f, leaves (cone_lower ts rp cone lm c) = [conn; f] /\ joined [conn; f] /\
    c_eval conn 1 = p /\ c_eval f 1 = c_eval c 1 /\
    (forall s, norm (vsub (c_eval conn s) (lower_apex rp cone)) = norm (vsub p (lower_apex rp cone))) /\
    c_length conn = norm (vsub p (lower_apex rp cone)) * A /\
    c_eval conn 0 = c_eval (from_point_center_angle p (lower_apex rp cone) A UP true) 1.
Proof.
  intros F N AC K p A X. unfold cone_lower. fold (lower_normal rp cone lm). fold (lower_apex rp cone).
  destruct (ts_plane ts EQUALITY _ _ _ _) as [ok x]. cbn in K. subst ok.
  destruct (ts_plane ts MINDISTANCE _ _ _ _) as [ok2 y]. cbn [snd] in p.
  destruct (C29_set_start_on c y F N) as (E0 & E1). set (c1 := set_start_on c y) in *. fold p in E0. rewrite E0. fold A.
  set (arc := from_point_center_angle p (lower_apex rp cone) A UP true).
  exists (c_reverse arc), c1.
  assert (A1 : c_act c1 = true) by (unfold c1; rewrite set_start_act; exact AC).
  destruct (connector_new p (lower_apex rp cone) A) as (m & AE). fold arc in AE.
  assert (R : forall s, c_eval (c_reverse arc) s = c_eval arc (1 - s)).
  { intros s. apply C30_reverse_line_arc; [rewrite AE; apply new_fresh|]. right. rewrite AE. do 4 eexists. reflexivity. }
  assert (FR : fresh (c_reverse arc)) by (rewrite AE; reflexivity).
  assert (V : forall s, vsub (c_eval arc s) (lower_apex rp cone) = smul (norm (vsub p (lower_apex rp cone)))
     (vadd (smul (cos (A * s)) (normalize (vsub p (lower_apex rp cone)))) (smul (sin (A * s)) (normalize (cross UP (normalize (vsub p (lower_apex rp cone)))))))).
  { intros s. destruct (connector_eval p (lower_apex rp cone) A s X) as (E & _). unfold arc. rewrite E.
    generalize (smul (norm (vsub p (lower_apex rp cone)))
     (vadd (smul (cos (A * s)) (normalize (vsub p (lower_apex rp cone)))) (smul (sin (A * s)) (normalize (cross UP (normalize (vsub p (lower_apex rp cone)))))))).
    generalize (lower_apex rp cone). clear. intros. vec_ring. }
  assert (P1 : c_eval (c_reverse arc) 1 = p).
  { rewrite R. replace (1 - 1) with 0 by ring.
    assert (D : vsub p (lower_apex rp cone) <> ORIGIN) by (intros Q; apply X; rewrite Q; clear; vec_ring).
    pose proof (V 0) as V0. rewrite Rmult_0_r, cos_0, sin_0 in V0. pose proof (normalize_eq _ D) as NE.
    revert V0 NE. generalize (normalize (cross UP (normalize (vsub p (lower_apex rp cone))))) (normalize (vsub p (lower_apex rp cone))) (norm (vsub p (lower_apex rp cone))).
    generalize (c_eval arc 0) (lower_apex rp cone). clearbody p. clear. intros a b u v n V0 NE.
    rewrite <- (vadd_vsub a b), V0, <- (vadd_vsub p b), NE. vec_ring. }
  split; [|split; [|split; [exact P1|split; [exact E1|split; [|split]]]]].
  - change [Prim (c_reverse arc); Prim c1] with (map Prim (c_reverse arc :: c1 :: nil)). apply two_leaves; [|exact A1|exact FR|apply set_start_fresh].
    rewrite AE. reflexivity.
  - cbn [joined]. split; [|exact I]. rewrite P1. symmetry. exact E0.
  - intros s. rewrite R, V, norm_smul, Rabs_right by (apply Rle_ge, norm_nonneg).
    destruct (connector_eval p (lower_apex rp cone) A s X) as (_ & X1 & Y1 & XY).
    match goal with |- _ * norm ?v = _ => assert (Q : norm v = 1) end; [|rewrite Q; ring].
    apply norm_eq; [lra|]. revert X1 Y1 XY. generalize (normalize (cross UP (normalize (vsub p (lower_apex rp cone))))) (normalize (vsub p (lower_apex rp cone))).
    pose proof (sc1 (A * (1 - s))) as SC. revert SC. generalize (sin (A * (1 - s))) (cos (A * (1 - s))). clear.
    intros a b SC [u1 u2 u3] [v1 v2 v3]. vec_simpl. intros. nsatz.
  - rewrite AE. reflexivity.
  - rewrite R. f_equal. ring.
Qed.

(** C97: the arc does not reach down to the dedendum cone: its angle is measured from the pitch plane through the origin and
    not at the apex.  From a point of the pitch circle an arc of length [h_d] is needed; it is longer by [R (PI / 2 - g)]. *)
Theorem C97_cone_connector_refuted ts rp cone lm c pia : fresh c -> (2 <= c_ndiv c)%nat -> c_act c = true ->
  0 < rp -> 0 < cone < PI -> 0 < lm_hd lm -> - PI / 2 < pia < PI / 2 ->
  fst (ts_plane ts EQUALITY (Prim c) (lower_normal rp cone lm) (lower_apex rp cone) 0) = false ->
  c_eval c (snd (ts_plane ts MINDISTANCE (Prim c) (lower_normal rp cone lm) (lower_apex rp cone) 0)) = circle_pt rp (- pia) ->
  exists conn f, leaves (cone_lower ts rp cone lm c) = [conn; f] /\
    c_length conn = lm_hd lm + apex_dist rp (cone / 2) * (PI / 2 - cone / 2) /\ lm_hd lm < c_length conn /\
    (pia = 0 -> c_eval conn 0 = vadd (cone_apex rp (cone / 2))
       (smul (apex_dist rp (cone / 2)) (V (sin (cone - PI / 2 - lm_hd lm / apex_dist rp (cone / 2))) 0
                                          (- cos (cone - PI / 2 - lm_hd lm / apex_dist rp (cone / 2)))))).
Proof.
  intros F N AC R0 B H PB K E.
  assert (S : 0 < sin (cone / 2)) by (apply sin_gt_0; lra). assert (C : 0 < cos (cone / 2)) by (apply cos_gt_0; lra).
  assert (S' : sin (cone / 2) <> 0) by lra. destruct (apex_dist_facts rp (cone / 2) R0 S') as (L & P & _ & _).
  assert (PX : 0 < cos (- pia)) by (apply cos_gt_0; lra).
  pose proof (C97_cone_missed ts rp cone lm c F N AC K) as M. cbn zeta in M. rewrite E in M.
  change (sphere_R rp cone) with (apex_dist rp (cone / 2)) in M.
  assert (AP : angle_to_plane (circle_pt rp (- pia)) OUT = 0).
  { unfold angle_to_plane. replace (vsub (circle_pt rp (- pia)) (smul (dot (circle_pt rp (- pia)) OUT) OUT)) with (circle_pt rp (- pia)).
    - rewrite circle_pt_norm by lra. destruct (Req_EM_T rp 0); [lra|]. unfold angle_between.
      replace (cross (circle_pt rp (- pia)) (circle_pt rp (- pia))) with ORIGIN by (clear; unfold circle_pt; vec_ring).
      replace (norm ORIGIN) with 0 by (symmetry; apply norm_eq; [lra|clear; vec_ring]).
      apply atan2_0_pos. rewrite <- norm_sqr, circle_pt_norm by lra. apply Rmult_lt_0_compat; lra.
    - clear. unfold circle_pt. vec_ring. }
  rewrite AP in M. set (A := lm_hd lm / apex_dist rp (cone / 2)) in *.
  assert (A0 : 0 < A) by (apply Rdiv_lt_0_compat; assumption).
  assert (AE : Rabs (0 - (PI / 2 - cone / 2 + A)) = PI / 2 - cone / 2 + A).
  { rewrite Rabs_left1 by lra. ring. }
  rewrite AE in M. rewrite lower_apex_eq in M by assumption.
  assert (HE : apex_dist rp (cone / 2) = rp / sin (cone / 2)).
  { unfold apex_dist. apply Rabs_right. apply Rle_ge, Rlt_le, Rdiv_lt_0_compat; assumption. }
  assert (NV : norm (vsub (circle_pt rp (- pia)) (cone_apex rp (cone / 2))) = apex_dist rp (cone / 2)).
  { apply norm_eq; [lra|]. rewrite HE. unfold circle_pt, cone_apex, tan. vec_simpl. pose proof (sc1 (- pia)) as Q. pose proof (sc1 (cone / 2)) as Q2.
    generalize dependent (sin (- pia)). generalize dependent (cos (- pia)). intros a _ b Q1.
    replace (rp / sin (cone / 2) * (rp / sin (cone / 2))) with (rp * rp * (sin (cone / 2) * sin (cone / 2) + cos (cone / 2) * cos (cone / 2)) / (sin (cone / 2) * sin (cone / 2)))
      by (rewrite Q2; field; lra).
    transitivity (rp * rp * (b * b + a * a) + rp / (sin (cone / 2) / cos (cone / 2)) * (rp / (sin (cone / 2) / cos (cone / 2)))); [ring|].
    rewrite Q1. field. lra. }
  assert (NX : cross UP (vsub (circle_pt rp (- pia)) (cone_apex rp (cone / 2))) <> ORIGIN).
  { intros Q. apply (f_equal vz) in Q. revert Q. unfold circle_pt, cone_apex. vec_simpl. intros Q.
    assert (0 < rp * cos (- pia)) by (apply Rmult_lt_0_compat; assumption). lra. }
  destruct (M NX) as (conn & f & LV & _ & _ & _ & _ & LN & ST). rewrite NV in LN.
  exists conn, f. split; [exact LV|].
  assert (LE : c_length conn = lm_hd lm + apex_dist rp (cone / 2) * (PI / 2 - cone / 2)) by (rewrite LN; unfold A; field; lra).
  split; [exact LE|]. split.
  - rewrite LE. assert (0 < apex_dist rp (cone / 2) * (PI / 2 - cone / 2)) by (apply Rmult_lt_0_compat; lra). lra.
  - intros ->. rewrite ST. destruct (connector_eval (circle_pt rp (- 0)) (cone_apex rp (cone / 2)) (PI / 2 - cone / 2 + A) 1 NX) as (-> & _).
    rewrite NV.
    assert (XE : normalize (vsub (circle_pt rp (- 0)) (cone_apex rp (cone / 2))) = V (sin (cone / 2)) 0 (- cos (cone / 2))).
    { unfold normalize. rewrite NV, HE. unfold circle_pt, cone_apex, tan. rewrite Ropp_0, cos_0, sin_0. apply vec_eq; vec_simpl; field; lra. }
    rewrite XE.
    assert (YE : normalize (cross UP (V (sin (cone / 2)) 0 (- cos (cone / 2)))) = V (- cos (cone / 2)) 0 (- sin (cone / 2))).
    { rewrite normalize_unit.
      - clear. generalize (cos (cone / 2)) (sin (cone / 2)). intros. vec_ring.
      - pose proof (sc1 (cone / 2)) as Q. clear - Q. generalize dependent (cos (cone / 2)). generalize (sin (cone / 2)). intros. vec_simpl. nsatz. }
    rewrite YE. rewrite Rmult_1_r.
    replace (cone - PI / 2 - A) with (cone / 2 - (PI / 2 - cone / 2 + A)) by lra.
    rewrite sin_minus, cos_minus. generalize (PI / 2 - cone / 2 + A) (cone_apex rp (cone / 2)) (apex_dist rp (cone / 2)). clear. intros a v r.
    generalize (sin a) (cos a) (sin (cone / 2)) (cos (cone / 2)). clear. intros. vec_ring.
Qed.

(** For a pitch angle of up to 45 degrees such an arc, started in the middle plane, even goes past the axis of the gear. *)
Corollary C97_past_axis_refuted ts rp cone lm c : fresh c -> (2 <= c_ndiv c)%nat -> c_act c = true ->
  0 < rp -> 0 < cone <= PI / 2 -> 0 < lm_hd lm < apex_dist rp (cone / 2) ->
  fst (ts_plane ts EQUALITY (Prim c) (lower_normal rp cone lm) (lower_apex rp cone) 0) = false ->
  c_eval c (snd (ts_plane ts MINDISTANCE (Prim c) (lower_normal rp cone lm) (lower_apex rp cone) 0)) = circle_pt rp 0 ->
  exists conn f, leaves (cone_lower ts rp cone lm c) = [conn; f] /\ vx (c_eval conn 0) < 0.
Proof.
  intros F N A R0 B H K E. pose proof PI_RGT_0. pose proof PI2_3_2.
  destruct (C97_cone_connector_refuted ts rp cone lm c 0 F N A R0 ltac:(lra) ltac:(lra) ltac:(lra) K) as (conn & f & LV & _ & _ & ST).
  { rewrite Ropp_0. exact E. }
  exists conn, f. split; [exact LV|]. rewrite (ST eq_refl).
  assert (P : 0 < apex_dist rp (cone / 2)) by lra.
  set (D := lm_hd lm / apex_dist rp (cone / 2)).
  assert (DB : 0 < D < 1).
  { unfold D. split; [apply Rdiv_lt_0_compat; lra|]. apply (Rmult_lt_reg_r (apex_dist rp (cone / 2))); [exact P|].
    replace (lm_hd lm / apex_dist rp (cone / 2) * apex_dist rp (cone / 2)) with (lm_hd lm) by (field; lra). lra. }
  assert (SN : sin (cone - PI / 2 - D) < 0) by (apply sin_lt_0_var; lra).
  unfold cone_apex. generalize (rp / tan (cone / 2)) (apex_dist rp (cone / 2)) (sin (cone - PI / 2 - D)) (cos (cone - PI / 2 - D)) P SN.
  clear. intros h r s c P SN. vec_simpl. assert (0 < r * - s) by (apply Rmult_lt_0_compat; lra). lra.
Qed.

(** A solver that finds nothing. *)
Definition blind : tsolver := mkTs (fun _ _ _ _ _ => (false, 0, 0)) (fun _ _ _ _ _ => (false, 0)) (fun _ g => g) (fun _ g => (0, g)) (fun r _ _ => (0, r)).

Example C97_plane_example :
  let l := leaves (plane_lower blind 10 (1 / 10) (mkLim 1 (12 / 10)) (line_curve (V 9 0 0) (V 11 0 0) true)) in
  joined l /\ norm (c_eval (hd (line_curve ORIGIN RIGHT true) l) 0) = 88 / 10.
Proof.
  set (c := line_curve (V 9 0 0) (V 11 0 0) true).
  assert (PL : forall s, vz (c_eval c s) = 0) by (intros s; unfold c; rewrite line_eval; vec_simpl; ring).
  destruct (C97_plane blind 10 (1 / 10) (mkLim 1 (12 / 10)) c (line_curve ORIGIN RIGHT true) (new_fresh _ _ _ _) (NDIV_2)
    eq_refl ltac:(cbn; lra) PL) as (_ & J & _ & _ & K).
  cbn zeta. split; [exact J|]. destruct (K eq_refl) as (Q & _). rewrite Q. cbn [blind ts_meet fst snd].
  unfold c. rewrite line_eval. replace (norm _) with 9.
  - cbn [lm_hd]. rewrite Rmin_left by lra. lra.
  - symmetry. apply norm_eq; [lra|]. vec_simpl. ring.
Qed.

Example C97_cone_example :
  exists conn f, leaves (cone_lower blind 10 (PI / 2) (mkLim 1 (12 / 10)) (line_curve (V 10 0 0) (V 11 0 1) true)) = [conn; f] /\
    vx (c_eval conn 0) < 0.
Proof.
  pose proof PI_RGT_0. apply C97_past_axis_refuted; try lra; try reflexivity; try apply NDIV_2.
  - replace (PI / 2 / 2) with (PI / 4) by lra. destruct (apex_dist_facts 10 (PI / 4) ltac:(lra)) as (L & _).
    + apply Rgt_not_eq, sin_gt_0; lra.
    + cbn [lm_hd]. lra.
  - cbn [blind ts_plane snd]. rewrite line_eval. unfold circle_pt. rewrite cos_0, sin_0. apply vec_eq; vec_simpl; ring.
Qed.
Definition seeing : tsolver := mkTs (fun _ _ _ _ _ => (true, 0, 0)) (fun _ _ _ _ _ => (true, 1 / 4)) (fun _ g => g) (fun _ g => (0, g)) (fun r _ _ => (0, r)).
Example C97_cone_found_example : exists f,
  cone_lower seeing 10 (PI / 2) (mkLim 1 (12 / 10)) (line_curve (V 9 0 0) (V 11 0 1) true) = Prim f /\
  c_eval f 0 = c_eval (line_curve (V 9 0 0) (V 11 0 1) true) (1 / 4) /\ c_eval f 1 = V 11 0 1.
Proof.
  destruct (C97_cone_found seeing 10 (PI / 2) (mkLim 1 (12 / 10)) (line_curve (V 9 0 0) (V 11 0 1) true)
    (new_fresh _ _ _ _) NDIV_2 eq_refl eq_refl) as (f & A & B & C).
  exists f. split; [exact A|]. split; [exact B|]. rewrite C. apply C32_ends.
Qed.

(** ** Bevel teeth with undercut *)
(** C94: when the undercut is wanted and the flank could be cut at its lower limit, the tooth has become a single curve, which
    cannot be trimmed. *)
Theorem C94_octoid_refuted ts rp alpha pia cone pitch_angle lm : cone <> 0 ->
  cone / 2 - asin (sin (cone / 2) * cos alpha) < lm_hd lm / sphere_R rp cone ->
  fst (ts_plane ts EQUALITY (Prim (octoid_flank ts rp alpha pia cone)) (lower_normal rp cone lm) (lower_apex rp cone) 0) = true ->
  octoid_undercut_tooth ts rp alpha pia cone pitch_angle (Some lm) = Err AttributeError.
Proof.
  intros N E K. unfold octoid_undercut_tooth, check_lower, lt_b. destruct (Req_EM_T cone 0); [contradiction|].
  destruct (Rlt_dec _ _) as [_|L]; [|contradiction].
  unfold cone_lower. fold (lower_normal rp cone lm). fold (lower_apex rp cone).
  destruct (ts_plane ts EQUALITY _ (lower_normal rp cone lm) _ _) as [ok x]. cbn in K. subst ok. reflexivity.
Qed.

(** When it is not wanted the tooth is that of OctoidTooth. *)
Theorem C94_octoid_plain ts rp alpha pia cone pitch_angle lm : cone <> 0 ->
  lm_hd lm / sphere_R rp cone <= cone / 2 - asin (sin (cone / 2) * cos alpha) ->
  octoid_undercut_tooth ts rp alpha pia cone pitch_angle (Some lm) = Ok (octoid_tooth ts rp alpha pia cone (Some lm)).
Proof.
  intros N E. unfold octoid_undercut_tooth, octoid_tooth, lt_b. destruct (Req_EM_T cone 0); [contradiction|].
  destruct (Rlt_dec _ _) as [L|_]; [lra|reflexivity].
Qed.

(** ** C98: default generators *)
Lemma one_leaf a : c_act a = true -> fresh a -> new_chain true (Prim a :: nil) = Chain true (Prim a :: nil).
Proof.
  intros A F. unfold new_chain. apply update_id; [cbn; rewrite A; reflexivity|]. cbn. rewrite A. constructor; [exact F|constructor].
Qed.

(** The default flank of a cylindrical gear: a straight line of length 0.4 rp whose middle is the pitch point, at the angle
    [tooth_angle] to the radius. *)
Theorem C98_line rp pia tooth_angle : 0 < rp ->
  exists p q, leaves (plane_line_tooth rp pia tooth_angle) = [line_curve p q true] /\
    smul (/ 2) (vadd p q) = circle_pt rp (- pia) /\ norm (vsub q p) = 4 / 10 * rp /\
    vsub q p = smul (4 / 10) (circle_pt rp (tooth_angle - pia)).
Proof.
  intros R0. unfold plane_line_tooth. cbv zeta. rewrite one_leaf by (reflexivity || apply new_fresh).
  do 2 eexists. split; [reflexivity|]. rewrite rotz_RIGHT.
  match goal with |- _ /\ _ /\ ?x = ?y => assert (E : x = y) end.
  { replace (circle_pt rp (tooth_angle - pia)) with (mapp (rotz tooth_angle) (circle_pt rp (- pia))).
    - generalize (circle_pt rp (- pia)). clear. intros v. apply vec_eq; vec_simpl; field.
    - unfold circle_pt. apply vec_eq; vec_simpl; replace (tooth_angle - pia) with (tooth_angle + - pia) by ring;
      rewrite ?cos_plus, ?sin_plus; ring. }
  split; [|split; [|exact E]].
  - generalize (circle_pt rp (- pia)). clear. intros v. apply vec_eq; vec_simpl; field.
  - rewrite E, norm_smul, circle_pt_norm by lra. rewrite Rabs_right by lra. reflexivity.
Qed.
Example C98_line_example : exists p q, leaves (plane_line_tooth 10 (1 / 10) (PI / 9)) = [line_curve p q true] /\
  smul (/ 2) (vadd p q) = circle_pt 10 (- (1 / 10)).
Proof. destruct (C98_line 10 (1 / 10) (PI / 9) ltac:(lra)) as (p & q & A & B & _). exists p, q. auto. Qed.

(** The default flank of a bevel gear: an arc about the apex, starting at the pitch point. *)
Theorem C98_arc rp pia tooth_angle cone s : 0 < rp -> - PI < cone < PI -> cone <> 0 ->
  exists c, leaves (cone_arc_tooth rp pia tooth_angle cone) = [c] /\ c_eval c 0 = circle_pt rp (- pia) /\
    on_cone_sphere rp (cone / 2) (c_eval c s).
Proof.
  intros R0 B N. unfold cone_arc_tooth. cbv zeta. set (g := cone / 2) in *.
  assert (BG : - PI / 2 < g < PI / 2) by (unfold g; lra). assert (G0 : g <> 0) by (unfold g; lra).
  assert (S : sin g <> 0) by (apply sin_ok; lra). pose proof (cos_ok g BG) as CG.
  rewrite rotz_RIGHT. set (p := circle_pt rp (- pia)). fold (cone_apex rp g).
  assert (NP : norm p = rp) by (apply circle_pt_norm; lra).
  assert (ND : norm (vsub (cone_apex rp g) p) = apex_dist rp g).
  { apply norm_eq; [unfold apex_dist; apply Rabs_pos|]. unfold apex_dist. rewrite <- Rabs_mult.
    rewrite Rabs_right by (apply Rle_ge, Rle_0_sqr). unfold p, circle_pt, cone_apex, tan. vec_simpl.
    pose proof (sc1 (- pia)) as Q. pose proof (sc1 g) as Q2.
    generalize dependent (sin (- pia)). generalize dependent (cos (- pia)). intros a b Q1.
    replace (rp / sin g * (rp / sin g)) with (rp * rp * (sin g * sin g + cos g * cos g) / (sin g * sin g)) by (rewrite Q2; field; exact S).
    transitivity (rp * rp * (b * b + a * a) + rp / (sin g / cos g) * (rp / (sin g / cos g))); [ring|].
    rewrite Q1. field. split; lra. }
  destruct (apex_dist_facts rp g R0 S) as (L & P & _ & _).
  set (ta := smul (/ norm (vsub (cone_apex rp g) p)) (vsub (cone_apex rp g) p)).
  assert (TA : dot ta ta = 1).
  { unfold ta. rewrite dot_smul_l, dot_smul_r, <- norm_sqr, ND. field. lra. }
  set (ax := cross (smul (/ norm p) p) OUT).
  assert (AX : dot ax ax = 1 /\ dot ax (vsub p (cone_apex rp g)) = 0).
  { split.
    - unfold ax. rewrite NP. unfold p, circle_pt. vec_simpl. pose proof (sc1 (- pia)) as Q.
      generalize dependent (sin (- pia)). generalize dependent (cos (- pia)). intros a b Q1.
      transitivity (rp * / rp * (rp * / rp) * (b * b + a * a)); [ring|]. rewrite Q1. field. lra.
    - unfold ax, cone_apex, p, circle_pt. clear. vec_ring. }
  set (axis := mapp (from_rotvec (smul (tooth_angle * sign g) ta)) ax).
  assert (TN : norm ta = 1) by (apply norm_eq; [lra|rewrite TA; ring]).
  assert (RT : rotation (rodrigues ta (tooth_angle * sign g))) by (apply rotation_rodrigues; exact TN).
  assert (AE : axis = mapp (rodrigues ta (tooth_angle * sign g)) ax) by (unfold axis; rewrite from_rotvec_axis by exact TN; reflexivity).
  assert (PA : vsub p (cone_apex rp g) = smul (- apex_dist rp g) ta).
  { unfold ta. rewrite ND. generalize (cone_apex rp g). clearbody p. generalize dependent (apex_dist rp g). clear. intros r _ _ P q.
    apply vec_eq; vec_simpl; field; lra. }
  assert (A1 : dot axis axis = 1) by (rewrite AE, orthogonal_dot by apply RT; apply AX).
  assert (A2 : dot axis (vsub p (cone_apex rp g)) = 0).
  { rewrite PA, dot_smul_r, AE. rewrite <- (rodrigues_axis ta (tooth_angle * sign g) TN) at 2. rewrite orthogonal_dot by apply RT.
    destruct AX as (_ & AX). rewrite PA, dot_smul_r in AX. exact AX. }
  assert (PN : p <> cone_apex rp g).
  { intros E. rewrite <- E in ND. replace (vsub p p) with ORIGIN in ND by (clearbody p; clear; vec_ring).
    replace (norm ORIGIN) with 0 in ND by (symmetry; apply norm_eq; [lra|clear; vec_ring]). lra. }
  assert (EV := fun s => C33_point_center_angle p (cone_apex rp g) (1 / 10) axis true s PN A1 A2).
  exists (from_point_center_angle p (cone_apex rp g) (1 / 10) axis true). split; [|split].
  - rewrite one_leaf; [| |].
    + cbn. unfold from_point_center_angle, arc_from_frame. destruct (as_euler_zyx _) as [[? ?] ?]. reflexivity.
    + unfold from_point_center_angle, arc_from_frame. destruct (as_euler_zyx _) as [[? ?] ?]. reflexivity.
    + unfold from_point_center_angle, arc_from_frame. destruct (as_euler_zyx _) as [[? ?] ?]. apply new_fresh.
  - rewrite EV, Rmult_0_r, mapp_rodrigues, cos_0, sin_0. clearbody p axis. generalize (cone_apex rp g). clear. intros q. vec_ring.
  - unfold on_cone_sphere. rewrite EV.
    replace (vsub (vadd (mapp (rodrigues axis (1 / 10 * s)) (vsub p (cone_apex rp g))) (cone_apex rp g)) (cone_apex rp g))
      with (mapp (rodrigues axis (1 / 10 * s)) (vsub p (cone_apex rp g))).
    2:{ generalize (mapp (rodrigues axis (1 / 10 * s)) (vsub p (cone_apex rp g))) (cone_apex rp g). clear. intros. vec_ring. }
    rewrite orthogonal_norm by (apply rotation_rodrigues, norm_eq; [lra|rewrite A1; ring]).
    rewrite PA, norm_smul, TN, Rabs_Ropp, Rabs_right by lra. ring.
Qed.

(** RackToothGenerator: tooth width and pitch have no effect on the flank, its middle is always PI / 4 below the axis. *)
Theorem C98_rack_parameters_refuted tooth_width pitch tooth_angle :
  (forall tooth_width' pitch', rack_line_tooth tooth_width' pitch' tooth_angle = rack_line_tooth tooth_width pitch tooth_angle) /\
  exists p q, leaves (rack_line_tooth tooth_width pitch tooth_angle) = [line_curve p q true] /\
    smul (/ 2) (vadd p q) = V 0 (- (PI / 4)) 0.
Proof.
  split; [reflexivity|]. unfold rack_line_tooth. cbv zeta. rewrite one_leaf by (reflexivity || apply new_fresh).
  do 2 eexists. split; [reflexivity|]. generalize (mapp (rotz tooth_angle) RIGHT). intros v. apply vec_eq; vec_simpl; field.
Qed.

Example C98_example : exists c, leaves (cone_arc_tooth 10 (1 / 10) 0 (PI / 2)) = [c] /\ c_eval c 0 = circle_pt 10 (- (1 / 10)) /\
  on_cone_sphere 10 (PI / 2 / 2) (c_eval c (1 / 2)).
Proof. pose proof PI_RGT_0. apply C98_arc; lra. Qed.
