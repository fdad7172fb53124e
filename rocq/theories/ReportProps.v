(** Property C99 (reported reference circles); its example is in RadiiProps.v. *)
From Coq Require Import Nsatz Reals List ZArith Lra Lia Psatz Bool.
From Verif Require Import Num Vec Transform TransformProps Params ParamsProps Coords CoordsProps Interp Curve CurveLem
  CurveProps ArcLem ArcProps Chain ChainLem ChainProps GearMath Tooth Wrapper Info RefLines RefLinesProps Profile ProfileLem
  ProfileProps Build BuildProps Fillet FilletProps FlankProps ReduceProps Teeth Report.
Import ListNotations.
Open Scope R_scope.

(** ** Specification *)
(** [c] is the circle of radius [r] about the point [ce] of the axis, parallel to the xy plane, placed by the slice's
    transform [S] and then the gear's transform [T]. *)
Record placed_circle (c : curve) (T S : gtransform) (r : R) (ce : vec) : Prop := {
  pc_points : forall s, c_eval c s =
    apply_gear_transform (apply_gear_transform (vadd ce (V (r * cos (2 * PI * s)) (r * sin (2 * PI * s)) 0)) S) T;
  pc_radius : arc_radius c = g_scale T * g_scale S * r;
  pc_center : arc_center c = apply_gear_transform (apply_gear_transform ce S) T }.
(** Distance of a point of the profile from the gear's axis. *)
Definition axis_dist (p : vec) : R := sqrt (vx p * vx p + vy p * vy p).
(** A gear that is not mirrored or shrunk to a point. *)
Definition sound (k : core) : Prop := 0 < g_scale (k_trf k) /\ rotation (g_orient (k_trf k)).

(** ** Lemmas *)
Lemma slice_comp T k z p : apply_gear_transform p (g_mul T (k_slice k z)) =
  apply_gear_transform (apply_gear_transform p (k_slice k z)) T.
Proof.
  rewrite g_mul_apply, g_comp_apply. unfold k_slice. cbn [g_orient g_scale g_angle g_center]. rewrite !mapp_I. reflexivity.
Qed.
Lemma euler_0 : euler_zyx 0 0 0 = UNIT3X3.
Proof. unfold euler_zyx. apply mat_eq; vec_simpl; rewrite ?sin_0, ?cos_0; ring. Qed.
Lemma circle_eval r c s : c_eval (arc_curve r (2 * PI) c 0 0 0 true) s =
  vadd c (V (r * cos (2 * PI * s)) (r * sin (2 * PI * s)) 0).
Proof.
  unfold arc_curve. rewrite euler_0, arc_new_eval. apply vec_eq; vec_simpl; ring.
Qed.

Lemma moved_radius_gen p c a m act f :
  arc_radius (arc_transform f p a c m act) = norm (vsub (f p) (f c)) /\ arc_center (arc_transform f p a c m act) = f c.
Proof.
  unfold arc_transform, from_point_center_angle, arc_from_frame. destruct (as_euler_zyx _) as [[y q] r].
  unfold arc_radius, arc_center, arc_curve. rewrite arc_new_shape. auto.
Qed.

Lemma moved_circle_spec T r c : 0 < g_scale T -> rotation (g_orient T) -> 0 < r ->
  (forall s, c_eval (moved_circle T r c) s =
     apply_gear_transform (vadd c (V (r * cos (2 * PI * s)) (r * sin (2 * PI * s)) 0)) T) /\
  arc_radius (moved_circle T r c) = g_scale T * r /\ arc_center (moved_circle T r c) = apply_gear_transform c T.
Proof.
  intros HS HR Hr.
  destruct (C34_gear_transform T r (2 * PI) c 0 0 0 true HS HR Hr) as (c' & E & F).
  assert (EQ : c' = moved_circle T r c).
  { revert E. unfold c_transform. unfold arc_curve at 1. rewrite arc_new_shape. intros E.
    injection E as <-. reflexivity. }
  split; [|split].
  - intros s. rewrite <- EQ, F, circle_eval. reflexivity.
  - unfold moved_circle. destruct (moved_radius_gen (c_eval (arc_curve r (2 * PI) c 0 0 0 true) 0) c (2 * PI)
      (euler_zyx 0 0 0) true (fun q => apply_gear_transform q T)) as (-> & _).
    rewrite circle_eval, Rmult_0_r, cos_0, sin_0, !apply_gear_transform_eq.
    replace (vsub _ _) with (smul (g_scale T) (mapp (mmul (g_orient T) (rotz (g_angle T))) (V r 0 0))).
    + rewrite norm_smul, orthogonal_norm by (apply (rotation_mmul _ _ HR (rotation_rotz _))).
      rewrite (Rabs_right (g_scale T)) by lra. f_equal. rewrite norm_xz. apply Rabs_right. lra.
    + rewrite mapp_mmul, mapp_vadd, mapp_vadd.
      replace (V (r * 1) (r * 0) 0) with (V r 0 0) by (apply vec_eq; cbn; ring).
      generalize (mapp (g_orient T) (mapp (rotz (g_angle T)) (V r 0 0))).
      generalize (mapp (g_orient T) (mapp (rotz (g_angle T)) c)). generalize (g_center T), (g_scale T). clear.
      intros v k u w. vec_ring.
  - unfold moved_circle. apply (moved_radius_gen (c_eval (arc_curve r (2 * PI) c 0 0 0 true) 0) c (2 * PI)
      (euler_zyx 0 0 0) true (fun q => apply_gear_transform q T)).
Qed.

Lemma placed_moved k z r ce : sound k -> 0 < g_scale (k_slice k z) -> 0 < r ->
  placed_circle (moved_circle (g_mul (k_trf k) (k_slice k z)) r ce) (k_trf k) (k_slice k z) r ce.
Proof.
  intros [HS HR] SS Hr.
  assert (G1 : g_scale (g_mul (k_trf k) (k_slice k z)) = g_scale (k_trf k) * g_scale (k_slice k z)) by reflexivity.
  assert (G2 : rotation (g_orient (g_mul (k_trf k) (k_slice k z)))).
  { cbn [g_mul g_orient k_slice]. apply rotation_mmul; [exact HR|apply rotation_I]. }
  destruct (moved_circle_spec (g_mul (k_trf k) (k_slice k z)) r ce) as (A & B & C).
  - rewrite G1. apply Rmult_lt_0_compat; assumption.
  - exact G2.
  - exact Hr.
  - split.
    + intros s. rewrite A. apply slice_comp.
    + rewrite B, G1. reflexivity.
    + rewrite C. apply slice_comp.
Qed.

(** The parts of a profile. *)
Lemma profile_parts sv fs tooth rp ha hd ho ca br tipf rootf red pitch trf p :
  generate_reference_profile sv fs tooth rp ha hd ho ca br tipf rootf red pitch trf = Ok p ->
  let rc := reduced_circles fs tooth (generate_reference_circles rp ha hd ho ca br) red ca br in
  exists f t p0, filleted_flank fs tooth rc tipf rootf pitch = Ok f /\ trim_flank sv f rc tipf rootf pitch = Ok t /\
    assemble t rc pitch = Ok p0 /\ pr_ra p = pr_ra p0 /\ pr_rd p = pr_rd p0 /\ pr_ro p = pr_ro p0 /\ pr_trf p = trf.
Proof.
  intros E rc. unfold generate_reference_profile in E. fold rc in E.
  destruct (filleted_flank fs tooth rc tipf rootf pitch) as [f|] eqn:EF; cbn [bind] in E; [|discriminate].
  unfold trim_reference_profile in E.
  destruct (trim_flank sv f rc tipf rootf pitch) as [t|] eqn:ET; cbn [bind] in E; [|discriminate].
  destruct (assemble t rc pitch) as [p0|] eqn:EA; cbn [bind] in E; [|discriminate].
  apply Ok_inj in E. subst p. exists f, t, p0. cbn [pr_ra pr_rd pr_ro pr_trf]. auto 10.
Qed.

Lemma assemble_ro t rc pitch p : assemble t rc pitch = Ok p ->
  arc_radius (pr_ro p) = arc_radius (rc_o rc) /\ arc_center (pr_ro p) = arc_center (rc_o rc).
Proof.
  unfold assemble. intros E. destruct (n_eval t 1) as [a|]; cbn [bind] in E; [|discriminate].
  destruct (n_eval t 0) as [b|]; cbn [bind] in E; [|discriminate].
  destruct (n_eval _ 0) as [p0|]; cbn [bind] in E; [|discriminate].
  destruct (n_eval _ 1) as [p1|]; cbn [bind] in E; [|discriminate].
  apply Ok_inj in E. subst p. cbn [pr_ro]. unfold arc_curve, arc_radius, arc_center. rewrite arc_new_shape. auto.
Qed.

Lemma closing_radius p q r y : vz p = vz q ->
  arc_radius (closing_arc p q (axis_center p q) r y) =
    (if Rlt_dec (/ 10000000000) (norm (vsub p q)) then axis_dist p else r) /\
  arc_center (closing_arc p q (axis_center p q) r y) = V 0 0 (vz p).
Proof.
  intros Z. assert (CE : axis_center p q = V 0 0 (vz p)) by (unfold axis_center; apply vec_eq; cbn; lra).
  rewrite CE. unfold closing_arc. destruct (Rlt_dec _ _) as [H|H].
  - unfold from_2_point_center, arc_from_frame. destruct (as_euler_zyx _) as [[a b] c].
    unfold arc_radius, arc_center, arc_curve. rewrite arc_new_shape. split; [|reflexivity].
    unfold axis_dist, norm. f_equal. destruct p as [x y0 z]. vec_simpl. ring.
  - unfold arc_radius, arc_center, arc_curve. rewrite arc_new_shape. auto.
Qed.

Lemma assemble_lands t rc pitch p : flank_ok t -> List.Forall fresh (leaves t) -> assemble t rc pitch = Ok p ->
  arc_radius (pr_ra p) = (if Rlt_dec (/ 10000000000) (tip_gap t) then axis_dist (n_point t 1) else arc_radius (rc_a rc)) /\
  arc_center (pr_ra p) = V 0 0 (vz (n_point t 1)) /\
  arc_radius (pr_rd p) = (if Rlt_dec (/ 10000000000) (root_gap t pitch) then axis_dist (n_point t 0) else arc_radius (rc_d rc)) /\
  arc_center (pr_rd p) = V 0 0 (vz (n_point t 0)).
Proof.
  intros F FR. unfold assemble.
  destruct (flank_mirror_ends t F) as (M0 & M1).
  rewrite !(leaves_wf t (fo_act t F) (fo_pos t F)). cbn [bind]. rewrite M0, (refresh_id t FR), (flank_mirror_fresh t F).
  assert (RO : c_eval (n_rotated (Prim (flank_mirror t)) (- pitch) OUT ORIGIN) 1 = turn (- pitch) (flip (n_point t 0))).
  { unfold n_rotated, n_transformed. assert (A : n_active (Prim (flank_mirror t)) = true).
    { cbn [n_active]. unfold flank_mirror. destruct (n_mirrored_eq t (fo_act t F)) as (_ & ->). reflexivity. }
    rewrite A, fresh_end by (try apply new_fresh; apply NDIV_2). unfold c_fun. cbn [new_curve update_lengths c_shape c_t1].
    rewrite shape_fun_gen, turn_rotate. unfold n_point at 1. cbn [n_eval]. rewrite M1. reflexivity. }
  rewrite RO, (axis_center_comm (n_point t 0)). intros E.
  destruct (n_eval (new_chain true _) 0) as [p0|]; cbn [bind] in E; [|discriminate].
  destruct (n_eval (new_chain true _) 1) as [p1|]; cbn [bind] in E; [|discriminate].
  apply Ok_inj in E. subst p. cbn [pr_ra pr_rd].
  edestruct (closing_radius (n_point t 1) (flip (n_point t 1))) as (A1 & A2); [reflexivity|].
  edestruct (closing_radius (turn (- pitch) (flip (n_point t 0))) (n_point t 0)) as (B1 & B2); [reflexivity|].
  rewrite A1, A2, B1, B2. split; [reflexivity|]. split; [reflexivity|]. split; [|reflexivity].
  clear. unfold root_gap. destruct (Rlt_dec _ _); [|reflexivity]. clear. unfold axis_dist. f_equal.
  unfold turn, flip. cbn [vx vy vz]. pose proof (sc1 (- pitch)) as SC. clear - SC. 
  generalize dependent (sin (- pitch)). generalize (cos (- pitch)). intros c s SC. nsatz.
Qed.

Lemma profile_trf sv fs ts g z p : ig_profile sv fs ts g z = Ok p -> pr_trf p = k_slice (ig_core g) z.
Proof.
  unfold ig_profile. intros E. destruct (ig_tooth ts g z) as [t|]; cbn [bind] in E; [|discriminate].
  apply profile_parts in E. destruct E as (f & t' & p0 & H). apply H.
Qed.

(** ** C99 *)
(** The reported circles are the circles of the profile of that height, and the pitch circle, placed by the slice's
    transform and the gear's: their points, radii (scaled by the module and the size of the slice) and centres. *)
Theorem C99_circles sv fs ts g z p : ig_profile sv fs ts g z = Ok p -> sound (ig_core g) ->
  0 < g_scale (k_slice (ig_core g) z) -> 0 < num_teeth (k_tooth (ig_core g)) ->
  0 < arc_radius (pr_ra p) -> 0 < arc_radius (pr_rd p) -> 0 < arc_radius (pr_ro p) ->
  exists c, ig_circles sv fs ts g z = Ok c /\
    let T := k_trf (ig_core g) in let S := k_slice (ig_core g) z in
    placed_circle (rc_a c) T S (arc_radius (pr_ra p)) (arc_center (pr_ra p)) /\
    placed_circle (rc_p c) T S (num_teeth (k_tooth (ig_core g)) / 2) ORIGIN /\
    placed_circle (rc_d c) T S (arc_radius (pr_rd p)) (arc_center (pr_rd p)) /\
    placed_circle (rc_o c) T S (arc_radius (pr_ro p)) (arc_center (pr_ro p)).
Proof.
  intros E SO SS N HA HD HO. unfold ig_circles. rewrite E. cbn [bind]. eexists. split; [reflexivity|]. cbv zeta.
  pose proof (profile_trf _ _ _ _ _ _ E) as ET.
  unfold radii_data. rewrite ET. cbn [rc_a rc_p rc_d rc_o].
  split; [|split; [|split]]; apply placed_moved; auto; lra.
Qed.

(** Moving or turning the gear, or meshing it, does not change a reported radius; scaling it does in proportion. *)
Theorem C99_placement sv fs ts g z T c c' : sound (ig_core g) -> 0 < g_scale T -> rotation (g_orient T) ->
  ig_circles sv fs ts g z = Ok c -> ig_circles sv fs ts (ig_place g T) z = Ok c' ->
  let k := g_scale T / g_scale (k_trf (ig_core g)) in
  arc_radius (rc_a c') = k * arc_radius (rc_a c) /\ arc_radius (rc_p c') = k * arc_radius (rc_p c) /\
  arc_radius (rc_d c') = k * arc_radius (rc_d c) /\ arc_radius (rc_o c') = k * arc_radius (rc_o c).
Proof.
  intros [HS HR] HS' HR' E E' k. unfold ig_circles in E, E'. change (ig_profile sv fs ts (ig_place g T) z) with
    (ig_profile sv fs ts g z) in E'.
  destruct (ig_profile sv fs ts g z) as [p|] eqn:EP; cbn [bind] in E, E'; [|discriminate].
  apply profile_trf in EP. apply Ok_inj in E. apply Ok_inj in E'. subst c c'.
  assert (K : forall r ce, arc_radius (moved_circle (g_mul (k_trf (ig_core (ig_place g T))) (pr_trf p)) r ce) =
    k * arc_radius (moved_circle (g_mul (k_trf (ig_core g)) (pr_trf p)) r ce)).
  { rewrite EP. intros r ce. unfold moved_circle. rewrite !(proj1 (moved_radius_gen _ _ _ _ _ _)). cbn [ig_place ig_core with_trf k_trf].
    assert (Q : forall T0 u v, norm (vsub (apply_gear_transform u (g_mul T0 (k_slice (ig_core g) z)))
        (apply_gear_transform v (g_mul T0 (k_slice (ig_core g) z)))) =
      Rabs (g_scale T0 * g_scale (k_slice (ig_core g) z)) * norm (mapp (g_orient T0) (mapp (g_orient (k_slice (ig_core g) z))
        (mapp (rotz (g_angle T0)) (mapp (rotz (g_angle (k_slice (ig_core g) z))) (vsub u v)))))).
    { intros T0 u v. rewrite !g_mul_apply, <- norm_smul. f_equal. rewrite !mapp_vsub.
      generalize (mapp (g_orient T0) (mapp (g_orient (k_slice (ig_core g) z)) (mapp (rotz (g_angle T0)) (mapp (rotz (g_angle (k_slice (ig_core g) z))) u)))).
      generalize (mapp (g_orient T0) (mapp (g_orient (k_slice (ig_core g) z)) (mapp (rotz (g_angle T0)) (mapp (rotz (g_angle (k_slice (ig_core g) z))) v)))).
      generalize (apply_gear_transform (g_center (k_slice (ig_core g) z)) T0), (g_scale T0 * g_scale (k_slice (ig_core g) z)). clear. intros a b c d. vec_ring. }
    rewrite !Q, !orthogonal_norm by (apply HR || apply HR' || apply rotation_I || apply rotation_rotz).
    rewrite !Rabs_mult, (Rabs_right (g_scale T)), (Rabs_right (g_scale (k_trf _))) by lra. unfold k. field. lra. }
  unfold radii_data. cbn [rc_a rc_p rc_d rc_o]. rewrite !K. auto.
Qed.
