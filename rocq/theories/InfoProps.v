(** Properties C67, C68, C69 and C74: reported positions, crowning, negative tooth numbers. *)
From Coq Require Import Reals Lra Psatz Lia ZArith List Bool.
From Verif Require Import Num Vec Transform TransformProps Params ParamsProps Coords GearMath GearLem Tooth Wrapper
  MeshLem MeshConj MeshProps MeshContactProps BevelProps Info.
Import ListNotations.
Open Scope R_scope.

(** ** C67 *)

(** The tip of the pitch cone: the sections of the placed gear shrink to this point. *)
Definition cone_tip (g : igear) (P : vec) : Prop :=
  exists z, g_scale (ig_center_transform_at_z g z) = 0 /\ ig_center_point_at_z g z = P.

Lemma conical_tip g n gam P : conical g n gam -> cone_tip g P ->
  P = vadd (g_center (k_trf (ig_core g)))
        (smul (ip_module (ig_in g) * (IZR n / 2 / tan gam)) (mapp (g_orient (k_trf (ig_core g))) OUT)) /\
  c_center (k_cone_data (ig_core g)) = P.
Proof.
  intros H (z & S & E).
  pose proof (IZR_lt _ _ (co_n _ _ _ H)) as Hn. pose proof (co_gam _ _ _ H) as Hg.
  assert (Sg : 0 < sin gam) by (apply sin_gt_0; lra).
  unfold ig_center_transform_at_z, ig_center_point_at_z in *.
  set (T := k_trf (ig_core g)) in *.
  assert (K : ig_core g = with_trf (calc_params (ig_in g)) T) by apply (co_core _ _ _ H).
  assert (NT : num_teeth (k_tooth (ig_core g)) = IZR n).
  { rewrite K. cbn [with_trf calc_params k_tooth]. rewrite (co_teeth _ _ _ H).
    unfold tp_make. destruct (Rlt_dec (IZR n) 0); [lra|reflexivity]. }
  assert (GA : k_gamma (ig_core g) = gam).
  { rewrite K. cbn [with_trf calc_params k_gamma]. rewrite (co_cone _ _ _ H). field. }
  cbn [g_mul k_slice g_scale] in S. rewrite NT, GA in S.
  assert (GS : g_scale T = ip_module (ig_in g)) by apply (co_scale _ _ _ H).
  pose proof (co_module _ _ _ H) as Hm.
  assert (Z : z = IZR n / (2 * sin gam)).
  { destruct (Rmult_integral _ _ S) as [Q|Q]; [lra|].
    apply (Rmult_eq_reg_r (2 * sin gam / IZR n)); [|apply Rgt_not_eq, Rdiv_lt_0_compat; lra].
    field_simplify; [|lra|lra]. field_simplify in Q; [|lra].
    apply (Rmult_eq_reg_r (IZR n)); [|lra]. apply (f_equal (fun q => q * IZR n)) in Q.
    field_simplify in Q; [|lra]. field_simplify; lra. }
  assert (EP : P = vadd (g_center T) (smul (ip_module (ig_in g) * (IZR n / 2 / tan gam)) (mapp (g_orient T) OUT))).
  { rewrite <- E. unfold ig_center_transform_at_z. fold T. cbn [g_mul k_slice g_center]. rewrite GA, GS, mapp_mmul.
    rewrite !mapp_smul, rotz_OUT, ?mapp_smul, !smul_smul. f_equal. f_equal.
    rewrite Z. unfold tan.
    destruct (Req_dec (cos gam) 0) as [C0|C0].
    - rewrite C0. unfold Rdiv. rewrite Rinv_0, !Rmult_0_r, Rinv_0. ring.
    - field. lra. }
  split; [exact EP|]. rewrite EP.
  unfold k_cone_data, c_center. cbn [base_radius c_trf gamma cone_angle]. unfold gamma. cbn [cone_angle].
  fold T. unfold apply_transform, g_base. cbn [t_scale t_orient t_center].
  replace (k_cone (ig_core g) / 2) with gam
    by (rewrite K; cbn [with_trf calc_params k_cone]; rewrite (co_cone _ _ _ H); field).
  unfold k_pitch_radius. rewrite NT.
  replace (k_module (ig_core g)) with (ip_module (ig_in g)) by (rewrite K; reflexivity).
  rewrite vmat_mtrans, GS, !mapp_smul, !smul_smul, vadd_comm. f_equal. f_equal.
  replace (IZR n * ip_module (ig_in g) / 2 / ip_module (ig_in g)) with (IZR n / 2) by (field; lra).
  unfold Rdiv. ring.
Qed.

Theorem C67_reported_point g n gam P : conical g n gam -> cone_tip g P ->
  ig_center_spherical g =
  vadd (g_center (k_trf (ig_core g)))
       (mapp (g_orient (k_trf (ig_core g))) (mapp (rotz (g_angle (k_trf (ig_core g)))) P)).
Proof.
  intros H E. destruct (conical_tip g n gam P H E) as (_ & E2).
  unfold ig_center_spherical, apply_gear_transform. rewrite E2, !vmat_mtrans, !mapp_smul, smul_smul.
  rewrite (co_scale _ _ _ H).
  replace (k_module (ig_core g)) with (ip_module (ig_in g)) by (rewrite (co_core _ _ _ H); reflexivity).
  rewrite Rinv_r, smul_1 by (pose proof (co_module _ _ _ H); lra). apply vadd_comm.
Qed.

Lemma orthogonal_inj A p q : orthogonal A -> mapp A p = mapp A q -> p = q.
Proof. intros H E. rewrite <- (orthogonal_inv_l A p H), E. apply orthogonal_inv_l, H. Qed.

Theorem C67_correct_iff g n gam P : conical g n gam -> cone_tip g P ->
  let T := k_trf (ig_core g) in
  let a := V 0 0 (ip_module (ig_in g) * (IZR n / 2 / tan gam)) in
  ig_center_spherical g = P <-> g_center T = vsub a (mapp (g_orient T) a).
Proof.
  intros H E T a. rewrite (C67_reported_point g n gam P H E). fold T.
  destruct (conical_tip g n gam P H E) as (EP & _). fold T in EP.
  assert (EA : a = smul (ip_module (ig_in g) * (IZR n / 2 / tan gam)) OUT)
    by (unfold a; clear; apply vec_eq; vec_simpl; ring).
  rewrite EA. clear EA a.
  set (h := ip_module (ig_in g) * (IZR n / 2 / tan gam)) in *. rewrite mapp_smul.
  assert (HO : orthogonal (g_orient T)) by apply (co_orient _ _ _ H).
  assert (RZ : orthogonal (rotz (g_angle T))) by apply rotation_rotz.
  assert (EQ : forall x y z : vec, vadd x y = vadd x z <-> y = z).
  { intros x y z. split; [|intros ->; reflexivity]. intros Q.
    apply (f_equal (fun v => vsub v x)) in Q. rewrite (vadd_comm x y), (vadd_comm x z), !vsub_vadd in Q. exact Q. }
  rewrite EP at 2. rewrite EQ. rewrite <- mapp_smul.
  assert (M1 : forall A p q, orthogonal A -> mapp A p = mapp A q <-> p = q).
  { intros A p q HA. split; [apply orthogonal_inj, HA|intros ->; reflexivity]. }
  rewrite (M1 _ _ _ HO).
  replace (smul h OUT) with (mapp (rotz (g_angle T)) (smul h OUT)) at 1 by (rewrite mapp_smul, rotz_OUT; reflexivity).
  rewrite (M1 _ _ _ RZ). rewrite mapp_smul, EP.
  split; intros Q.
  - rewrite <- Q. symmetry. apply vsub_vadd.
  - rewrite Q. apply vadd_vsub.
Qed.

(** A gear in standard orientation reports its apex exactly at the origin. *)
Corollary C67_unturned g n gam P : conical g n gam -> cone_tip g P ->
  g_orient (k_trf (ig_core g)) = UNIT3X3 ->
  (ig_center_spherical g = P <-> g_center (k_trf (ig_core g)) = ORIGIN).
Proof.
  intros H E U. rewrite (C67_correct_iff g n gam P H E), U, mapp_I, vsub_diag. reflexivity.
Qed.

Theorem C67_displaced_refuted p n gam P : ip_teeth p = IZR n -> (0 < n)%Z -> 0 < ip_module p ->
  ip_cone p = 2 * gam -> 0 < gam < PI -> ip_center p <> ORIGIN ->
  cone_tip (ig_new p) P -> ig_center_spherical (ig_new p) <> P.
Proof.
  intros Ht Hn Hm Hc Hg NC E Q.
  assert (H : conical (ig_new p) (Z.abs n) gam) by (apply ig_new_conical; auto; lia).
  assert (NN : ip_normalise p = p).
  { unfold ip_normalise. destruct (Rlt_dec (ip_teeth p) 0); [|reflexivity]. exfalso. apply IZR_lt in Hn. lra. }
  apply (C67_unturned _ _ _ _ H E) in Q; unfold ig_new in *; rewrite NN in *; cbn in *; auto.
Qed.

Example C67_example : exists p P, conical (ig_new p) 20 (PI / 4) /\ ip_center p = RIGHT /\
  cone_tip (ig_new p) P /\ P = V 1 0 20 /\ ig_center_spherical (ig_new p) = V 2 0 20.
Proof.
  exists (mkIP 20 5 0 (2 * (PI / 4)) RIGHT 0 2 false 0 0 0 0 1 1.2 (PI / 9) 0 0 false 0).
  exists (V 1 0 20).
  set (p := mkIP _ _ _ _ _ _ _ _ _ _ _ _ _ _ _ _ _ _ _).
  pose proof PI_RGT_0.
  assert (H1 : conical (ig_new p) 20 (PI / 4)).
  { apply (ig_new_conical p 20 (PI / 4)); cbn; [reflexivity|lia|lra|reflexivity|lra]. }
  assert (NN : ip_normalise p = p).
  { unfold ip_normalise. cbn [p ip_teeth]. destruct (Rlt_dec 20 0); [lra|reflexivity]. }
  assert (SP : 0 < sin (PI / 4)) by (apply sin_gt_0; lra).
  assert (CS : cos (PI / 4) = sin (PI / 4)).
  { rewrite sin_shift with (x := PI / 4) || rewrite <- (cos_shift (PI / 4)). f_equal. lra. }
  assert (CT : cone_tip (ig_new p) (V 1 0 20)).
  { exists (20 / (2 * sin (PI / 4))). unfold ig_center_point_at_z, ig_center_transform_at_z.
    unfold ig_new. rewrite NN. unfold calc_params, k_slice. cbn [p ip_teeth ip_center ip_cone ip_module ip_angle ig_core k_trf k_gamma k_tooth g_mul g_scale g_center].
    unfold tp_make. destruct (Rlt_dec 20 0); [lra|]. cbn [num_teeth].
    replace (2 * (PI / 4) / 2) with (PI / 4) by field. split; [field; lra|].
    rewrite CS. set (s := sin (PI / 4)) in *. clearbody s. clear CS H1 NN p. cbn [g_orient g_angle]. rewrite rotz_0, mmul_I_l, mapp_I. apply vec_eq; vec_simpl; field; lra. }
  repeat split; try exact CT; try exact (co_core _ _ _ H1); try apply H1.
  rewrite (C67_reported_point _ _ _ _ H1 CT). unfold ig_new. rewrite NN. cbn [ig_core calc_params k_trf g_center g_orient g_angle p ip_center ip_angle].
  rewrite rotz_0, !mapp_I. apply vec_eq; vec_simpl; ring.
Qed.

(** ** C68 *)
(** The reported height is the length of "centre plus the vector from the first to the second
    section": the position of the gear is not taken out. *)
Theorem C68_reported_height g :
  let z i := nth i (k_zvals (ig_core g)) 0 in
  ig_z_height g = norm (vadd (g_center (k_trf (ig_core g)))
    (vsub (ig_center_point_at_z g (z 1%nat)) (ig_center_point_at_z g (z 0%nat)))).
Proof.
  cbn zeta. unfold ig_z_height, ig_center_point_at_z, ig_center_transform_at_z, apply_gear_transform.
  cbn [g_mul g_center]. rewrite !vmat_mtrans.
  generalize (g_center (k_trf (ig_core g))) (g_center (k_slice (ig_core g) (nth 1 (k_zvals (ig_core g)) 0)))
    (g_center (k_slice (ig_core g) (nth 0 (k_zvals (ig_core g)) 0))) (g_orient (k_trf (ig_core g)))
    (rotz (g_angle (k_trf (ig_core g)))) (g_scale (k_trf (ig_core g))).
  intros c p q A B s. rewrite <- !mapp_mmul, mapp_vsub. f_equal. apply vec_eq; vec_simpl; ring.
Qed.

(** The axial extent. *)
Definition axial_extent (g : igear) : R := norm (vsub (ig_center_point_top g) (ig_center_point_bottom g)).

Lemma norm_eq_iff a b : norm a = norm b <-> dot a a = dot b b.
Proof.
  split; intros H; [rewrite <- !norm_sqr, H; reflexivity|unfold norm; rewrite H; reflexivity].
Qed.

(** For a gear of two sections: right exactly if the centre lies on a certain sphere, in
    particular at the origin. *)
Theorem C68_correct_iff g : length (k_zvals (ig_core g)) = 2%nat ->
  let c := g_center (k_trf (ig_core g)) in
  let e := vsub (ig_center_point_top g) (ig_center_point_bottom g) in
  ig_z_height g = axial_extent g <-> dot c c + 2 * dot c e = 0.
Proof.
  intros L c e. rewrite C68_reported_height. unfold axial_extent.
  fold c. unfold ig_center_point_top, ig_center_point_bottom, k_z_last, k_z_first in *.
  destruct (k_zvals (ig_core g)) as [|z0 [|z1 [|? ?]]]; try discriminate.
  cbn [nth last] in *. fold e. rewrite norm_eq_iff.
  replace (dot (vadd c e) (vadd c e)) with (dot c c + 2 * dot c e + dot e e) by (clear; generalize c e; vec_ring).
  lra.
Qed.

Corollary C68_at_origin g : length (k_zvals (ig_core g)) = 2%nat -> g_center (k_trf (ig_core g)) = ORIGIN ->
  ig_z_height g = axial_extent g.
Proof.
  intros L C. apply C68_correct_iff; [exact L|]. rewrite C. vec_simpl. ring.
Qed.

(** Shifting a gear sideways always enlarges the reported height. *)
Theorem C68_sideways_refuted g : length (k_zvals (ig_core g)) = 2%nat ->
  let c := g_center (k_trf (ig_core g)) in
  dot c (vsub (ig_center_point_top g) (ig_center_point_bottom g)) = 0 -> c <> ORIGIN ->
  axial_extent g < ig_z_height g.
Proof.
  intros L c D N. rewrite C68_reported_height. unfold axial_extent in *. fold c.
  unfold ig_center_point_top, ig_center_point_bottom, k_z_last, k_z_first in *.
  destruct (k_zvals (ig_core g)) as [|z0 [|z1 [|? ?]]]; try discriminate.
  cbn [nth last] in *. set (e := vsub _ _) in *. clearbody e c.
  apply sqrt_lt_1; [apply dot_nonneg..|].
  replace (dot (vadd c e) (vadd c e)) with (dot c c + 2 * dot c e + dot e e) by (clear; revert c e; vec_ring).
  pose proof (norm_pos c N). pose proof (norm_sqr c). nra.
Qed.

(** proportion_to_z runs from the bottom to the second section: to the top only if that is
    the last one. *)
Theorem C68_proportion g : (2 <= length (k_zvals (ig_core g)))%nat ->
  k_p2z (ig_core g) 0 = k_z_first (ig_core g) /\
  (k_p2z (ig_core g) 1 = k_z_last (ig_core g) <-> nth 1 (k_zvals (ig_core g)) 0 = last (k_zvals (ig_core g)) 0).
Proof.
  intros L. unfold k_p2z, k_z_first, k_z_last. split; [ring|].
  split; intros E; [rewrite <- E|rewrite <- E]; ring.
Qed.

(** A herringbone gear (three sections) reports half of its height and its middle as top. *)
Theorem C68_herringbone_refuted p : 0 < ip_teeth p -> 0 < ip_module p -> 0 < ip_height p ->
  ip_center p = ORIGIN -> 0 < cos (ip_helix p) ->
  let g := h_gear (helical_ring_new p true) in
  axial_extent g = ip_height p /\ ig_z_height g = ip_height p / 2 /\
  ig_center_point_at_z g (k_p2z (ig_core g) 1) = ig_center_point_middle g.
Proof.
  intros Hn Hm Hh Hc Cb g.
  assert (NN : ip_normalise (helical_param p true) = helical_param p true).
  { unfold ip_normalise. destruct (Rlt_dec (ip_teeth (helical_param p true)) 0) as [L|L]; [|reflexivity].
    cbn in L. lra. }
  set (m := ip_module p / cos (ip_helix p)) in *.
  assert (Hmm : 0 < m) by (apply Rdiv_lt_0_compat; assumption).
  set (zh := ip_height p / m).
  assert (Hz : 0 < zh) by (apply Rdiv_lt_0_compat; assumption).
  set (z0 := - zh * ip_zanchor p). set (z1 := zh * (1 - ip_zanchor p)).
  assert (Z01 : z1 - z0 = zh) by (unfold z0, z1; ring).
  assert (ZV : k_zvals (ig_core g) = [z0; (z1 + z0) / 2; z1]).
  { unfold g, helical_ring_new. rewrite NN. cbn [herringbone_mod h_gear ig_core with_zvals k_zvals].
    unfold k_z_last, k_z_first. cbn [with_tooth calc_params k_zvals helical_param ip_height ip_module ip_zanchor nth last].
    fold m. fold zh. fold z0. fold z1. cbn [search_left].
    destruct (Rlt_dec z0 ((z1 + z0) / 2)) as [L|L]; [|lra].
    destruct (Rlt_dec z1 ((z1 + z0) / 2)) as [L2|L2]; [lra|]. reflexivity. }
  assert (TR : k_trf (ig_core g) = mkG ORIGIN UNIT3X3 m (ip_angle p)).
  { unfold g, helical_ring_new. rewrite NN. cbn. rewrite Hc. reflexivity. }
  assert (SL : forall z, g_center (k_slice (ig_core g) z) = smul z OUT).
  { intros z. cbn [k_slice g_center]. replace (k_gamma (ig_core g)) with 0.
    - rewrite cos_0, smul_smul. f_equal. ring.
    - unfold g, helical_ring_new. rewrite NN. cbn. field. }
  assert (CP : forall z, ig_center_point_at_z g z = smul (m * z) OUT).
  { intros z. unfold ig_center_point_at_z, ig_center_transform_at_z. rewrite TR. cbn [g_mul g_center g_scale g_orient g_angle].
    rewrite SL, mmul_I_l, mapp_smul, rotz_OUT, smul_smul. apply vadd_0_l. }
  assert (NO : forall x, 0 <= x -> norm (smul x OUT) = x).
  { intros x Hx. apply norm_eq; [exact Hx|vec_simpl; ring]. }
  assert (DD : forall x y, vsub (smul x OUT) (smul y OUT) = smul (x - y) OUT) by (intros; apply vec_eq; vec_simpl; ring).
  assert (MZ : m * zh = ip_height p) by (unfold zh; field; lra).
  split; [|split].
  - unfold axial_extent, ig_center_point_top, ig_center_point_bottom, k_z_last, k_z_first. rewrite ZV. cbn [nth last].
    rewrite !CP, DD, <- Rmult_minus_distr_l, Z01, MZ. apply NO. lra.
  - rewrite C68_reported_height, ZV. cbn [nth]. rewrite !CP, DD, TR. cbn [g_center]. rewrite vadd_0_l, <- Rmult_minus_distr_l.
    replace ((z1 + z0) / 2 - z0) with (zh / 2) by (rewrite <- Z01; field).
    replace (m * (zh / 2)) with (ip_height p / 2) by (rewrite <- MZ; field). apply NO. lra.
  - unfold ig_center_point_middle, k_p2z, k_z_first, k_z_last. rewrite ZV. cbn [nth last]. f_equal. field.
Qed.

Example C68_example : let g := ig_new (ex_param 20 false) in
  length (k_zvals (ig_core g)) = 2%nat /\ ig_z_height g = 5 /\
  (let g' := ig_place g (mkG (V 12 0 0) UNIT3X3 2 0) in axial_extent g' = 5 /\ ig_z_height g' = 13).
Proof.
  assert (NN : ip_normalise (ex_param 20 false) = ex_param 20 false).
  { unfold ip_normalise. cbn. destruct (Rlt_dec 20 0); [lra|reflexivity]. }
  split; [unfold ig_new; rewrite NN; reflexivity|].
  assert (CP : forall c, norm (vadd c (vsub
     (ig_center_point_at_z (ig_place (ig_new (ex_param 20 false)) (mkG c UNIT3X3 2 0)) (5 / 2))
     (ig_center_point_at_z (ig_place (ig_new (ex_param 20 false)) (mkG c UNIT3X3 2 0)) 0))) = norm (vadd c (V 0 0 5))).
  { intros c. f_equal. unfold ig_center_point_at_z, ig_center_transform_at_z, ig_new. rewrite NN.
    cbv [ig_place ig_core with_trf calc_params k_trf k_slice k_gamma k_tooth k_spiral g_mul g_center g_orient g_scale g_angle
      ex_param ip_cone].
    rewrite mmul_I_l, rotz_0, !mapp_I.
    replace (0 / 2) with 0 by field. rewrite cos_0. destruct c. apply vec_eq; vec_simpl; field. }
  assert (ZV : k_zvals (ig_core (ig_new (ex_param 20 false))) = [0; 5 / 2]).
  { unfold ig_new. rewrite NN. cbn. f_equal; [field|f_equal; field]. }
  split; [|cbn zeta; split].
  - rewrite C68_reported_height, ZV. cbn [nth].
    replace (ig_new (ex_param 20 false)) with (ig_place (ig_new (ex_param 20 false)) (mkG ORIGIN UNIT3X3 2 0)) at 2 3
      by (unfold ig_new; rewrite NN; reflexivity).
    replace (g_center (k_trf (ig_core (ig_new (ex_param 20 false))))) with ORIGIN by (unfold ig_new; rewrite NN; reflexivity).
    rewrite CP. apply norm_eq; [lra|vec_simpl; ring].
  - unfold axial_extent, ig_center_point_top, ig_center_point_bottom, k_z_last, k_z_first.
    replace (k_zvals (ig_core (ig_place (ig_new (ex_param 20 false)) (mkG (V 12 0 0) UNIT3X3 2 0)))) with [0; 5 / 2] by (symmetry; exact ZV).
    cbn [nth last].
    unfold ig_center_point_at_z, ig_center_transform_at_z, ig_new. rewrite NN.
    cbv [ig_place ig_core with_trf calc_params k_trf k_slice k_gamma k_tooth k_spiral g_mul g_center g_orient g_scale g_angle
      ex_param ip_cone].
    rewrite mmul_I_l, rotz_0, !mapp_I.
    replace (0 / 2) with 0 by field. rewrite cos_0. apply norm_eq; [lra|]. vec_simpl; field.
  - rewrite C68_reported_height. 
    replace (k_zvals (ig_core (ig_place (ig_new (ex_param 20 false)) (mkG (V 12 0 0) UNIT3X3 2 0)))) with [0; 5 / 2] by (symmetry; exact ZV).
    cbn [nth]. change (g_center (k_trf (ig_core (ig_place (ig_new (ex_param 20 false)) (mkG (V 12 0 0) UNIT3X3 2 0))))) with (V 12 0 0).
    rewrite CP. apply norm_eq; [lra|vec_simpl; ring].
Qed.
Example C68_at_origin_example : ig_z_height (ig_new (ex_param 20 false)) = axial_extent (ig_new (ex_param 20 false)).
Proof.
  apply C68_at_origin; unfold ig_new; (replace (ip_normalise (ex_param 20 false)) with (ex_param 20 false)
    by (unfold ip_normalise; cbn; destruct (Rlt_dec 20 0); [lra|reflexivity])); reflexivity.
Qed.

(** ** C69 *)
(** How much narrower (in angle, one flank) the tooth at section [z] is than the uncrowned tooth. *)
Definition relief (g : igear) (z : R) : R := k_tooth_angle (ig_core g) - ig_pia g z.
(** Distance of the section from the bottom face along the tooth. *)
Definition above_bottom (g : igear) (z : R) : R := k_module (ig_core g) * (z - k_z_first (ig_core g)).

(** A gear whose core belongs to its inputs ([cylindrical] and [conical] gears are). *)
Record standing (g : igear) : Prop := {
  sd_core : ig_core g = with_trf (calc_params (ig_in g)) (k_trf (ig_core g));
  sd_teeth : 0 < ip_teeth (ig_in g);
  sd_module : 0 < ip_module (ig_in g);
  sd_height : 0 < ip_height (ig_in g) }.

Lemma relief_eq g z : standing g ->
  relief g z = (z * 2 / ip_height (ig_in g) - 1) ^ 2 * ip_crown (ig_in g) / (ip_teeth (ig_in g) / 2) / 1000.
Proof.
  intros H. unfold relief, ig_pia, crowning. rewrite (sd_core _ H). cbn [with_trf calc_params k_rp k_tooth_angle].
  pose proof (sd_teeth _ H). pose proof (sd_height _ H). field. lra.
Qed.

Lemma mult_0_iff a b : a * b = 0 <-> a = 0 \/ b = 0.
Proof. split; [apply Rmult_integral|]. intros [-> | ->]; ring. Qed.

(** The full tooth thickness is reached at one section only, at the height
    [height * (module / 2 + z_anchor)] over the bottom instead of [height / 2]. *)
Theorem C69_full_thickness g z : standing g -> ip_crown (ig_in g) <> 0 ->
  relief g z = 0 <->
  above_bottom g z = ip_height (ig_in g) * (ip_module (ig_in g) / 2 + ip_zanchor (ig_in g)).
Proof.
  intros H N. rewrite relief_eq by exact H. unfold above_bottom, k_z_first. rewrite (sd_core _ H).
  cbn [with_trf calc_params k_module k_zvals nth].
  pose proof (sd_teeth _ H) as P1. pose proof (sd_height _ H) as P2. pose proof (sd_module _ H) as P3.
  set (t := ip_teeth (ig_in g)) in *. set (h := ip_height (ig_in g)) in *. set (m := ip_module (ig_in g)) in *.
  set (c := ip_crown (ig_in g)) in *. set (a := ip_zanchor (ig_in g)) in *.
  replace (m * (z - - (h / m) * a)) with (m * z + h * a) by (field; lra).
  replace ((z * 2 / h - 1) ^ 2 * c / (t / 2) / 1000) with (c * ((2 * z - h) * (2 * z - h) * (/ (h * h) * (2 / t / 1000)))) by (field; lra).
  assert (0 < / (h * h)) by (apply Rinv_0_lt_compat; nra).
  assert (0 < 2 / t / 1000) by (repeat apply Rdiv_lt_0_compat; lra).
  rewrite !mult_0_iff. split.
  - intros [Q|[[Q|Q]|[Q|Q]]]; try lra; nra.
  - intros Q. assert (2 * z - h = 0) by nra. tauto.
Qed.

(** Crowning is symmetric about mid height exactly if there is none or
    [module = 1 - 2 * z_anchor]. *)
Definition crowning_centred (g : igear) : Prop :=
  forall d, let mid := (k_z_first (ig_core g) + k_z_last (ig_core g)) / 2 in
  relief g (mid + d) = relief g (mid - d).
Theorem C69_centred_iff g : standing g ->
  crowning_centred g <-> ip_crown (ig_in g) = 0 \/ ip_module (ig_in g) = 1 - 2 * ip_zanchor (ig_in g).
Proof.
  intros H. unfold crowning_centred, k_z_last, k_z_first.
  pose proof (sd_teeth _ H) as P1. pose proof (sd_height _ H) as P2. pose proof (sd_module _ H) as P3.
  assert (E : forall d, relief g ((nth 0 (k_zvals (ig_core g)) 0 + last (k_zvals (ig_core g)) 0) / 2 + d) -
      relief g ((nth 0 (k_zvals (ig_core g)) 0 + last (k_zvals (ig_core g)) 0) / 2 - d) =
      ip_crown (ig_in g) * (1 - 2 * ip_zanchor (ig_in g) - ip_module (ig_in g)) * d *
      (8 / (ip_height (ig_in g) * ip_module (ig_in g) * (ip_teeth (ig_in g) / 2) * 1000))).
  { intros d. rewrite !relief_eq by exact H. rewrite (sd_core _ H). cbn [with_trf calc_params k_zvals nth last].
    field. lra. }
  assert (P : 0 < 8 / (ip_height (ig_in g) * ip_module (ig_in g) * (ip_teeth (ig_in g) / 2) * 1000)).
  { apply Rdiv_lt_0_compat; [lra|]. repeat apply Rmult_lt_0_compat; lra. }
  split.
  - intros C. specialize (C 1). cbn zeta in C. specialize (E 1).
    assert (Q : ip_crown (ig_in g) * (1 - 2 * ip_zanchor (ig_in g) - ip_module (ig_in g)) = 0) by nra.
    apply Rmult_integral in Q. destruct Q; [left|right]; lra.
  - intros C d. cbn zeta. specialize (E d). destruct C as [C|C]; rewrite C in E; nra.
Qed.

(** With z_anchor 0 the top keeps its full thickness at module 2 and the relief grows towards
    the bottom over the whole width; beyond module 2 full thickness is outside of the gear. *)
Theorem C69_module_two_refuted g : standing g -> ip_zanchor (ig_in g) = 0 -> ip_module (ig_in g) = 2 ->
  relief g (k_z_last (ig_core g)) = 0 /\
  relief g (k_z_first (ig_core g)) = ip_crown (ig_in g) / (ip_teeth (ig_in g) / 2) / 1000.
Proof.
  intros H A M. pose proof (sd_teeth _ H) as P1. pose proof (sd_height _ H) as P2.
  rewrite !relief_eq by exact H. unfold k_z_last, k_z_first. rewrite (sd_core _ H).
  cbn [with_trf calc_params k_zvals nth last]. rewrite A, M. split; field; lra.
Qed.

Example C69_example : exists p, let g := ig_new p in
  standing g /\ ip_crown (ig_in g) = 10 /\ ip_module (ig_in g) = 2 /\ ~ crowning_centred g /\
  relief g (k_z_first (ig_core g)) = 1 / 1000 /\ relief g (k_z_last (ig_core g)) = 0.
Proof.
  exists (mkIP 20 5 0 0 ORIGIN 0 2 false 0 0 0 0 1 1.2 (PI / 9) 0 10 false 0). cbn zeta.
  set (p := mkIP _ _ _ _ _ _ _ _ _ _ _ _ _ _ _ _ _ _ _).
  assert (NN : ip_normalise p = p).
  { unfold ip_normalise. cbn [p ip_teeth]. destruct (Rlt_dec 20 0); [lra|reflexivity]. }
  assert (H : standing (ig_new p)).
  { unfold ig_new. rewrite NN. split; cbn; try lra. reflexivity. }
  assert (I : ig_in (ig_new p) = p) by (unfold ig_new; rewrite NN; reflexivity).
  destruct (C69_module_two_refuted _ H) as (A & B); [rewrite I; reflexivity..|].
  rewrite A, B, C69_centred_iff, I by exact H. cbn [p ip_crown ip_module ip_zanchor ip_teeth].
  repeat split; try apply H; try lra.
Qed.

(** ** C74 *)
Definition with_teeth (p : iparam) (n : R) (ring : bool) : iparam :=
  mkIP n (ip_height p) (ip_helix p) (ip_cone p) (ip_center p) (ip_angle p)
    (ip_module p) (ip_undercut p) (ip_root_fillet p) (ip_tip_fillet p) (ip_tip_trunc p)
    (ip_shift p) (ip_add p) (ip_ded p) (ip_alpha p) (ip_backlash p) (ip_crown p) ring (ip_zanchor p).

Theorem C74_negative_means_ring p n ring : 0 < n ->
  ig_new (with_teeth p (- n) ring) = ig_new (with_teeth p n (negb ring)) /\
  num_teeth (k_tooth (ig_core (ig_new (with_teeth p (- n) ring)))) = n /\
  inside_teeth (k_tooth (ig_core (ig_new (with_teeth p (- n) ring)))) = negb ring.
Proof.
  intros H.
  assert (E : ip_normalise (with_teeth p (- n) ring) = with_teeth p n (negb ring)).
  { unfold ip_normalise, with_teeth. cbn. destruct (Rlt_dec (- n) 0); [|lra]. rewrite Ropp_involutive. reflexivity. }
  assert (E2 : ip_normalise (with_teeth p n (negb ring)) = with_teeth p n (negb ring)).
  { unfold ip_normalise, with_teeth. cbn. destruct (Rlt_dec n 0); [lra|]. reflexivity. }
  unfold ig_new. rewrite E, E2. split; [reflexivity|].
  cbn [ig_core calc_params k_tooth with_teeth ip_teeth ip_inside]. rewrite tp_make_pos by lra.
  split; reflexivity.
Qed.

(** Whether a gear agrees with itself on being a ring: input data (used for placing bevel gears
    and choosing limits), tooth data (used for building and meshing) and the sign of the outside
    limit (outside radius = pitch radius minus [h_o]). *)
Definition ring_consistent (g : igear) : Prop :=
  ip_inside (ig_in g) = inside_teeth (k_tooth (ig_core g)) /\
  (if inside_teeth (k_tooth (ig_core g)) then k_ho (ig_core g) < 0 else 0 < k_ho (ig_core g)).

Theorem C74_involute_consistent p : ip_teeth p <> 0 -> ring_consistent (ig_new p).
Proof.
  intros N. unfold ring_consistent, ig_new, ip_normalise. destruct (Rlt_dec (ip_teeth p) 0) as [L|L];
    cbn [ig_in ig_core calc_params k_tooth k_ho ip_inside ip_teeth];
    rewrite tp_make_pos by lra; cbn [inside_teeth]; split; try reflexivity; destruct (ip_inside p); cbn; lra.
Qed.

Theorem C74_helical_ring p hb : ip_teeth p <> 0 ->
  ring_consistent (h_gear (helical_ring_new p hb)) <-> 0 < ip_teeth p.
Proof.
  intros N.
  assert (E : forall k f, ring_consistent (h_gear (let (k1, angle1) := if hb then herringbone_mod k f else (k, f) in
      mkH (mkIG (ip_normalise (helical_param p true)) k1) angle1)) <->
      ring_consistent (mkIG (ip_normalise (helical_param p true)) k)).
  { intros k f. destruct hb; cbn [herringbone_mod h_gear ring_consistent ig_in ig_core with_zvals k_tooth k_ho]; reflexivity. }
  unfold helical_ring_new. rewrite E. unfold ring_consistent, ip_normalise.
  destruct (Rlt_dec (ip_teeth (helical_param p true)) 0) as [L|L];
    cbn [ig_in ig_core with_tooth k_tooth k_ho calc_params ip_inside ip_teeth helical_param negb] in *;
    rewrite tp_make_pos by lra; cbn [inside_teeth].
  - split; [intros [Q _]; discriminate|lra].
  - split; [lra|intros _; split; [reflexivity|lra]].
Qed.

Theorem C74_spur_ring p orc : ip_teeth p <> 0 -> 0 < orc ->
  ring_consistent (spur_ring_new p orc) <-> 0 < ip_teeth p.
Proof.
  intros N Ho. unfold spur_ring_new, ring_consistent, ip_normalise.
  match goal with |- context [Rlt_dec ?a 0] => destruct (Rlt_dec a 0) as [L|L] end;
    cbn [ig_in ig_core with_ho k_tooth k_ho calc_params ip_inside ip_teeth negb] in *;
    rewrite tp_make_pos by lra; cbn [inside_teeth].
  - split; [intros [_ Q]; lra|lra].
  - split; [lra|intros _; split; [reflexivity|lra]].
Qed.

(** SpurRingGear(-n) is a gear with outside teeth whose outside limit is beyond the tooth tips. *)
Corollary C74_negative_ring_refuted p orc : ip_teeth p < 0 -> 0 < orc ->
  inside_teeth (k_tooth (ig_core (spur_ring_new p orc))) = false /\ k_ho (ig_core (spur_ring_new p orc)) = - orc /\
  inside_teeth (k_tooth (ig_core (h_gear (helical_ring_new p false)))) = true /\
  k_ho (ig_core (h_gear (helical_ring_new p false))) = 2.
Proof.
  intros N Ho. unfold spur_ring_new, helical_ring_new, ip_normalise.
  cbn [helical_param ip_teeth]. destruct (Rlt_dec (ip_teeth p) 0); [|lra].
  cbn [h_gear ig_core with_ho with_tooth k_tooth k_ho calc_params ip_teeth ip_inside negb].
  rewrite !tp_make_pos by lra. repeat split; reflexivity.
Qed.

Example C74_example :
  ig_new (ex_param (-20) false) = ig_new (ex_param 20 true) /\ ring_consistent (ig_new (ex_param (-20) false)) /\
  ~ ring_consistent (spur_ring_new (ex_param (-20) false) 2.5) /\ ring_consistent (spur_ring_new (ex_param 20 false) 2.5).
Proof.
  split; [|split; [|split]].
  - exact (proj1 (C74_negative_means_ring (ex_param 20 false) 20 false ltac:(lra))).
  - apply C74_involute_consistent. cbn. lra.
  - rewrite C74_spur_ring; cbn; lra.
  - rewrite C74_spur_ring; cbn; lra.
Qed.
