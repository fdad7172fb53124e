(** Property C48: placement of bevel gears. *)
From Coq Require Import Nsatz Reals Lra Psatz Lia ZArith List Bool.
From Verif Require Import Num Vec Transform TransformProps Params ParamsProps Coords CoordsProps
  GearMath Tooth Wrapper GearLem MeshAngleProps MeshProps.
Import ListNotations.
Open Scope R_scope.

(** A bevel gear with [n] teeth and half cone angle [gam], placed anywhere. *)
Record conical (g : igear) (n : Z) (gam : R) : Prop := {
  co_core : ig_core g = with_trf (calc_params (ig_in g)) (k_trf (ig_core g));
  co_teeth : ip_teeth (ig_in g) = IZR n;
  co_n : (0 < n)%Z;
  co_module : 0 < ip_module (ig_in g);
  co_cone : ip_cone (ig_in g) = 2 * gam;
  co_gam : 0 < gam < PI;
  co_orient : orthogonal (g_orient (k_trf (ig_core g)));
  co_scale : g_scale (k_trf (ig_core g)) = ip_module (ig_in g) }.

Lemma ig_new_conical p n gam : ip_teeth p = IZR n -> (n <> 0)%Z -> 0 < ip_module p -> ip_cone p = 2 * gam ->
  0 < gam < PI -> conical (ig_new p) (Z.abs n) gam.
Proof.
  intros Ht Hn Hm Hc Ha. unfold ig_new, ip_normalise. rewrite Ht.
  destruct (Rlt_dec (IZR n) 0) as [L|L].
  - apply (lt_IZR n 0) in L. rewrite Z.abs_neq by lia.
    constructor; cbn [ig_in ig_core ip_teeth ip_module ip_cone]; try assumption; try reflexivity.
    + rewrite opp_IZR. reflexivity.
    + lia.
    + apply rotation_I.
  - assert (0 <= n)%Z by (apply le_IZR; lra). rewrite Z.abs_eq by lia.
    constructor; cbn [ig_in ig_core ip_teeth ip_module ip_cone]; try assumption; try reflexivity.
    + lia.
    + apply rotation_I.
Qed.

(** ** Specification: the pitch cone of a placed gear. *)
Definition axis_of (g : igear) : vec := g_z_axis (k_trf (ig_core g)).
Definition base_of (g : igear) : vec := g_center (k_trf (ig_core g)).
Definition pitch_r (g : igear) : R := ip_module (ig_in g) * ip_teeth (ig_in g) / 2.
(** Apex: on the axis, at the height at which the cone over the pitch circle closes. *)
Definition apex_of (g : igear) (gam : R) : vec :=
  vadd (base_of g) (smul (pitch_r g * cos gam / sin gam) (axis_of g)).
(** Points of the pitch circle. *)
Definition on_pitch_circle (g : igear) (p : vec) : Prop :=
  norm (vsub p (base_of g)) = pitch_r g /\ dot (vsub p (base_of g)) (axis_of g) = 0.
(** Angle between the axes. *)
Definition shaft_angle (ring1 ring2 : bool) (gam1 gam2 : R) : R :=
  if orb ring1 ring2 then gam2 - gam1 else gam1 + gam2.
(** The target direction in the plane of gear 2. *)
Definition target_in_plane (o : igear) (target : vec) : vec :=
  normalize (project_plane target (axis_of o)).

(** ** Lemmas *)
Lemma sin_gam g n gam : conical g n gam -> 0 < sin gam.
Proof. intros H. pose proof (co_gam _ _ _ H). apply sin_gt_0; lra. Qed.

Lemma pitch_r_pos g n gam : conical g n gam -> 0 < pitch_r g.
Proof.
  intros H. unfold pitch_r. rewrite (co_teeth _ _ _ H).
  assert (0 < IZR n) by (apply IZR_lt; apply (co_n _ _ _ H)).
  pose proof (co_module _ _ _ H). apply Rdiv_lt_0_compat; [apply Rmult_lt_0_compat; assumption|lra].
Qed.

Lemma k_tooth_con g n gam : conical g n gam -> k_tooth (ig_core g) = mkTP (IZR n) 0 (ip_inside (ig_in g)).
Proof.
  intros H. rewrite (co_core _ _ _ H). cbn [with_trf k_tooth calc_params]. rewrite (co_teeth _ _ _ H).
  apply tp_make_pos. apply IZR_lt. apply (co_n _ _ _ H).
Qed.

Lemma cone_data_con g n gam : conical g n gam ->
  k_cone_data (ig_core g) = mkC (2 * gam) (IZR n / 2) (g_base (k_trf (ig_core g))).
Proof.
  intros H. unfold k_cone_data, k_pitch_radius. rewrite (k_tooth_con _ _ _ H). cbn [num_teeth].
  f_equal.
  - rewrite (co_core _ _ _ H). cbn [with_trf k_cone calc_params]. apply (co_cone _ _ _ H).
  - rewrite (co_core _ _ _ H). cbn [with_trf k_module calc_params]. pose proof (co_module _ _ _ H). field. lra.
Qed.

Lemma c_center_con g n gam : conical g n gam -> c_center (k_cone_data (ig_core g)) = apex_of g gam.
Proof.
  intros H. rewrite (cone_data_con _ _ _ H). unfold c_center, gamma, apex_of.
  cbn [cone_angle base_radius c_trf].
  unfold apply_transform. cbn [g_base t_scale t_orient t_center].
  rewrite vmat_mtrans, !mapp_smul. fold (base_of g).
  replace (mapp (g_orient (k_trf (ig_core g))) OUT) with (axis_of g)
    by (unfold axis_of, g_z_axis; generalize (g_orient (k_trf (ig_core g))); intros O; vec_ring).
  rewrite (co_scale _ _ _ H). unfold pitch_r. rewrite (co_teeth _ _ _ H).
  pose proof (sin_gam _ _ _ H). replace (2 * gam / 2) with gam by field.
  set (m := ip_module _). set (z := axis_of g). set (b := base_of g).
  rewrite !smul_smul. rewrite vadd_comm. f_equal. f_equal. unfold tan.
  destruct (Req_dec (cos gam) 0) as [E|E].
  - rewrite E. unfold Rdiv. rewrite Rinv_0, !Rmult_0_r, Rinv_0. ring.
  - field. split; [lra|exact E].
Qed.

Lemma c_R_con g n gam : conical g n gam -> c_R (k_cone_data (ig_core g)) = pitch_r g / sin gam.
Proof.
  intros H. rewrite (cone_data_con _ _ _ H). unfold c_R, gamma. cbn [cone_angle base_radius c_trf g_base t_scale].
  rewrite (co_scale _ _ _ H). replace (2 * gam / 2) with gam by field.
  pose proof (sin_gam _ _ _ H). pose proof (pitch_r_pos _ _ _ H).
  replace (IZR n / 2 / sin gam * ip_module (ig_in g)) with (pitch_r g / sin gam)
    by (unfold pitch_r; rewrite (co_teeth _ _ _ H); field; lra).
  apply Rabs_right. left. apply Rdiv_lt_0_compat; assumption.
Qed.

(** The rotation axis, from the target direction. *)
Lemma cross_project v z : cross (project_plane v z) z = cross v z.
Proof. unfold project_plane. vec_ring. Qed.

Lemma cross_unit u z : dot u u = 1 -> dot z z = 1 -> dot u z = 0 -> dot (cross u z) (cross u z) = 1.
Proof. intros A B C. destruct u, z. vec_simpl. nsatz. Qed.

Lemma normalize_unit v : norm v <> 0 -> dot (normalize v) (normalize v) = 1.
Proof.
  intros H. pose proof (norm_nonneg v). unfold normalize. rewrite dot_smul_l, dot_smul_r, <- norm_sqr.
  field. exact H.
Qed.

Lemma target_in_plane_spec g n gam target : conical g n gam -> norm (project_plane target (axis_of g)) <> 0 ->
  let u := target_in_plane g target in
  dot u u = 1 /\ dot u (axis_of g) = 0 /\
  project_plane target (axis_of g) = smul (norm (project_plane target (axis_of g))) u.
Proof.
  intros H Hn u. unfold u, target_in_plane. split; [apply normalize_unit, Hn|].
  split.
  - unfold normalize. rewrite dot_smul_l. unfold axis_of at 2, g_z_axis.
    rewrite project_in_plane by apply (co_orient _ _ _ H). ring.
  - unfold normalize. rewrite smul_smul, Rinv_r by exact Hn. symmetry. apply smul_1.
Qed.

Lemma norm_1_of_dot v : dot v v = 1 -> norm v = 1. Proof. apply norm_unit. Qed.

Lemma normalize_r_pos k v : 0 < k -> norm v = 1 -> normalize_r (smul k v) = Ok v.
Proof.
  intros Hk Hv. unfold normalize_r. rewrite norm_smul, Hv, Rabs_right by lra.
  destruct (Req_EM_T (k * 1) 0); [lra|]. f_equal. apply normalize_smul; assumption.
Qed.

Lemma normalize_r_unit v : norm v = 1 -> normalize_r v = Ok v.
Proof. intros H. rewrite <- (smul_1 v) at 1. apply normalize_r_pos; [lra|exact H]. Qed.

(** Rotating z2 and u about u x z2. *)
Lemma turn_z u z th : dot u u = 1 -> dot z z = 1 -> dot u z = 0 ->
  mapp (rodrigues (cross u z) th) z = vsub (smul (cos th) z) (smul (sin th) u).
Proof.
  intros A B C. rewrite mapp_rodrigues.
  assert (X : cross (cross u z) z = vopp u).
  { destruct u as [a b c], z as [d e f]. unfold cross, vopp, dot in *. cbn [vx vy vz] in *.
    apply vec_eq; cbn [vx vy vz]; nsatz. }
  assert (D : dot (cross u z) z = 0) by (destruct u, z; vec_simpl; ring).
  rewrite X, D. destruct u, z. vec_ring.
Qed.
Lemma turn_u u z th : dot u u = 1 -> dot z z = 1 -> dot u z = 0 ->
  mapp (rodrigues (cross u z) th) u = vadd (smul (cos th) u) (smul (sin th) z).
Proof.
  intros A B C. rewrite mapp_rodrigues.
  assert (X : cross (cross u z) u = z).
  { destruct u as [a b c], z as [d e f]. unfold cross, dot in *. cbn [vx vy vz] in *.
    apply vec_eq; cbn [vx vy vz]; nsatz. }
  assert (D : dot (cross u z) u = 0) by (destruct u, z; vec_simpl; ring).
  rewrite X, D. destruct u, z. vec_ring.
Qed.

(** What mesh_to leaves behind for two bevel gears. *)
Lemma mesh_to_bevel g o sg so a target bl bias g' n1 n2 gam1 gam2 :
  conical g n1 gam1 -> conical o n2 gam2 ->
  / 10 ^ 12 <= norm (project_plane (normalize target) (axis_of o)) ->
  ig_mesh_to g o sg so a target bl bias = Ok g' ->
  let ring1 := ip_inside (ig_in g) in let ring2 := ip_inside (ig_in o) in
  let th := shaft_angle ring1 ring2 gam1 gam2 in
  let u := target_in_plane o (normalize target) in
  let T := k_trf (ig_core g') in let To := k_trf (ig_core o) in
  ig_in g' = ig_in g /\ conical g' n1 gam1 /\
  g_orient T = mmul (rodrigues (cross u (axis_of o)) th) (g_orient To) /\
  axis_of g' = vsub (smul (cos th) (axis_of o)) (smul (sin th) u) /\
  g_center T = vadd (apex_of o gam2) (smul (- (pitch_r g / sin gam1 * cos gam1)) (axis_of g')) /\
  g_angle T = calc_mesh_angle T To (2 * PI / IZR n1) (2 * PI / IZR n2) ring1 ring2.
Proof.
  intros H1 H2 HT.
  set (ring1 := ip_inside (ig_in g)). set (ring2 := ip_inside (ig_in o)).
  unfold ig_mesh_to, normalize_r at 1. destruct (Req_EM_T (norm target) 0) as [Z|Z]; [discriminate|].
  cbn [bind]. set (t := normalize target) in *.
  assert (T12 : 0 < / 10 ^ 12) by (apply Rinv_0_lt_compat; lra).
  set (l := norm (project_plane t (axis_of o))) in *.
  assert (L0 : 0 < l) by lra. assert (L0' : l <> 0) by lra.
  destruct (target_in_plane_spec o n2 gam2 t H2 L0') as (UU & UZ & PE). cbn zeta in *.
  set (u := target_in_plane o t) in *. fold l in PE.
  set (z := axis_of o) in *.
  assert (ZZ : dot z z = 1) by (apply col3_unit; apply (co_orient _ _ _ H2)).
  assert (AX : norm (cross u z) = 1) by (apply norm_unit, cross_unit; assumption).
  assert (K1 : k_cone (ig_core g) = 2 * gam1) by (rewrite (co_core _ _ _ H1); apply (co_cone _ _ _ H1)).
  assert (K2 : k_cone (ig_core o) = 2 * gam2) by (rewrite (co_core _ _ _ H2); apply (co_cone _ _ _ H2)).
  pose proof (co_gam _ _ _ H1) as G1. pose proof (co_gam _ _ _ H2) as G2.
  pose proof (sin_gam _ _ _ H1) as SG1. pose proof (sin_gam _ _ _ H2) as SG2.
  rewrite K1, K2. destruct (Req_EM_T (2 * gam1) 0) as [E|_]; [lra|].
  unfold bevel_placement. rewrite (c_center_con _ _ _ H2), (c_R_con _ _ _ H1).
  rewrite (cone_data_con _ _ _ H1), (cone_data_con _ _ _ H2). unfold gamma. cbn [cone_angle c_trf].
  replace (2 * gam1 / 2) with gam1 by field. replace (2 * gam2 / 2) with gam2 by field.
  destruct (Req_EM_T (sin gam1) 0) as [E|_]; [lra|]. destruct (Req_EM_T (sin gam2) 0) as [E|_]; [lra|].
  change (t_z_axis (g_base (k_trf (ig_core o)))) with z.
  rewrite <- (cross_project t z), PE.
  replace (cross (smul l u) z) with (smul l (cross u z)) by (destruct u, z; vec_ring).
  rewrite (normalize_r_pos l _ L0 AX). cbn [bind].
  unfold calc_mesh_orientation. change (g_z_axis (k_trf (ig_core o))) with z. fold l.
  destruct (Rlt_dec l (/ 10 ^ 12)) as [E|_]; [lra|].
  destruct (Req_EM_T (2 * gam1) 0) as [E|_]; [lra|].
  rewrite PE, normalize_smul by (assumption || apply norm_unit; assumption).
  rewrite (normalize_r_unit _ AX). cbn [bind].
  replace (2 * gam1 / 2) with gam1 by field. replace (2 * gam2 / 2) with gam2 by field.
  assert (AR : forall R0, angle_ref gam1 gam2 R0 ring1 ring2 0 = shaft_angle ring1 ring2 gam1 gam2).
  { intros. unfold angle_ref, shaft_angle. destruct ring1, ring2; cbn [orb]; unfold Rdiv; ring. }
  fold ring1 ring2. rewrite !AR. set (th := shaft_angle ring1 ring2 gam1 gam2).
  rewrite from_rotvec_axis by exact AX.
  unfold k_pitch_angle, tp_pitch_angle. rewrite (k_tooth_con _ _ _ H1), (k_tooth_con _ _ _ H2).
  cbn [inside_teeth num_teeth]. fold ring1 ring2.
  intros Q. injection Q as Q. subst g'. cbn zeta.
  cbn [ig_place ig_in ig_core with_trf k_trf g_orient g_center g_angle].
  split; [reflexivity|].
  assert (OO : orthogonal (mmul (rodrigues (cross u z) th) (g_orient (k_trf (ig_core o))))).
  { apply orthogonal_mmul; [apply rotation_rodrigues, AX|apply (co_orient _ _ _ H2)]. }
  split.
  { constructor; cbn [ig_place ig_in ig_core with_trf k_trf g_orient g_scale]; try apply H1; [|exact OO].
    rewrite (co_core _ _ _ H1) at 1. reflexivity. }
  split; [reflexivity|].
  assert (AXE : axis_of (ig_place g (mkG (vadd (apex_of o gam2)
      (mapp (rodrigues (cross u z) th) (smul (- (pitch_r g / sin gam1 * cos gam1)) z)))
      (mmul (rodrigues (cross u z) th) (g_orient (k_trf (ig_core o)))) (g_scale (k_trf (ig_core g)))
      (calc_mesh_angle (mkG (vadd (apex_of o gam2)
         (mapp (rodrigues (cross u z) th) (smul (- (pitch_r g / sin gam1 * cos gam1)) z)))
         (mmul (rodrigues (cross u z) th) (g_orient (k_trf (ig_core o)))) (g_scale (k_trf (ig_core g)))
         (g_angle (k_trf (ig_core g)))) (k_trf (ig_core o)) (2 * PI / IZR n1) (2 * PI / IZR n2) ring1 ring2)))
    = vsub (smul (cos th) z) (smul (sin th) u)).
  { unfold axis_of at 1, g_z_axis. cbn [ig_place ig_core with_trf k_trf g_orient].
    rewrite <- (turn_z u z th UU ZZ UZ). set (Rm := rodrigues _ _). unfold z, axis_of, g_z_axis.
    destruct Rm, (g_orient (k_trf (ig_core o))). vec_ring. }
  split; [exact AXE|]. split.
  { rewrite AXE. f_equal. rewrite mapp_smul. f_equal. apply turn_z; assumption. }
  reflexivity.
Qed.

Lemma mesh_to_bevel_ok g o sg so a target bl bias n1 n2 gam1 gam2 :
  conical g n1 gam1 -> conical o n2 gam2 ->
  / 10 ^ 12 <= norm (project_plane (normalize target) (axis_of o)) ->
  exists g', ig_mesh_to g o sg so a target bl bias = Ok g'.
Proof.
  intros H1 H2 HT.
  assert (T12 : 0 < / 10 ^ 12) by (apply Rinv_0_lt_compat; lra).
  unfold ig_mesh_to, normalize_r at 1. destruct (Req_EM_T (norm target) 0) as [Z|Z].
  { exfalso. unfold normalize in HT. rewrite Z, Rinv_0 in HT.
    replace (project_plane (smul 0 target) (axis_of o)) with ORIGIN in HT
      by (unfold project_plane; destruct target, (axis_of o); vec_ring).
    assert (norm ORIGIN = 0) by (apply norm_eq; [lra|vec_simpl; ring]). lra. }
  cbn [bind]. set (t := normalize target) in *.
  set (l := norm (project_plane t (axis_of o))) in *.
  assert (L0 : 0 < l) by lra. assert (L0' : l <> 0) by lra.
  destruct (target_in_plane_spec o n2 gam2 t H2 L0') as (UU & UZ & PE). cbn zeta in *.
  set (u := target_in_plane o t) in *. fold l in PE.
  set (z := axis_of o) in *.
  assert (ZZ : dot z z = 1) by (apply col3_unit; apply (co_orient _ _ _ H2)).
  assert (AX : norm (cross u z) = 1) by (apply norm_unit, cross_unit; assumption).
  assert (K1 : k_cone (ig_core g) = 2 * gam1) by (rewrite (co_core _ _ _ H1); apply (co_cone _ _ _ H1)).
  pose proof (co_gam _ _ _ H1) as G1. pose proof (sin_gam _ _ _ H1). pose proof (sin_gam _ _ _ H2).
  rewrite K1. destruct (Req_EM_T (2 * gam1) 0) as [E|_]; [lra|].
  unfold bevel_placement. rewrite (cone_data_con _ _ _ H1), (cone_data_con _ _ _ H2).
  unfold gamma. cbn [cone_angle c_trf].
  replace (2 * gam1 / 2) with gam1 by field. replace (2 * gam2 / 2) with gam2 by field.
  destruct (Req_EM_T (sin gam1) 0) as [E|_]; [lra|]. destruct (Req_EM_T (sin gam2) 0) as [E|_]; [lra|].
  change (t_z_axis (g_base (k_trf (ig_core o)))) with z.
  rewrite <- (cross_project t z), PE.
  replace (cross (smul l u) z) with (smul l (cross u z)) by (destruct u, z; vec_ring).
  rewrite (normalize_r_pos l _ L0 AX). cbn [bind].
  unfold calc_mesh_orientation. change (g_z_axis (k_trf (ig_core o))) with z. fold l.
  destruct (Rlt_dec l (/ 10 ^ 12)) as [E|_]; [lra|].
  destruct (Req_EM_T (2 * gam1) 0) as [E|_]; [lra|].
  rewrite PE, normalize_smul by (assumption || apply norm_unit; assumption).
  rewrite (normalize_r_unit _ AX). cbn [bind]. eexists. reflexivity.
Qed.

(** Directions matter only through their component in the plane of the gear. *)
Lemma tooth_at_dir T n d d' k : 0 < k ->
  project_plane d (g_z_axis T) = smul k (project_plane d' (g_z_axis T)) ->
  (tooth_at T n d <-> tooth_at T n d') /\ (gap_at T n d <-> gap_at T n d').
Proof.
  intros Hk E.
  assert (P : forall a, points_at T a d <-> points_at T a d').
  { intros a. split; intros (l & Hl & X).
    - exists (l / k). split; [apply Rdiv_lt_0_compat; assumption|].
      rewrite E in X. replace (project_plane d' (g_z_axis T)) with
        (smul (/ k) (smul k (project_plane d' (g_z_axis T))))
        by (rewrite smul_smul, Rinv_l by lra; apply smul_1).
      rewrite X, smul_smul. f_equal. field. lra.
    - exists (k * l). split; [apply Rmult_lt_0_compat; assumption|]. rewrite E, X, smul_smul. reflexivity. }
  split; (split; intros (j & X); exists j; apply P, X).
Qed.

Lemma project_comb (a b c : R) z1 z2 w (s : R) : dot z1 z1 = 1 -> dot z2 z1 = c ->
  vsub z2 (smul c z1) = smul s w ->
  project_plane (vadd (smul a z1) (smul b z2)) z1 = smul (b * s) w.
Proof.
  intros A B C. unfold project_plane.
  replace (dot (vadd (smul a z1) (smul b z2)) z1) with (a + b * c).
  2:{ transitivity (a * dot z1 z1 + b * dot z2 z1); [rewrite A, B; ring|destruct z1, z2; vec_simpl; ring]. }
  rewrite <- smul_smul, <- C. destruct z1, z2. vec_ring.
Qed.

(** The geometry behind the theorems, in terms of the axis z of gear 2 and the direction u. *)
Section Frame.
Variables (z u : vec) (th : R).
Hypothesis ZZ : dot z z = 1.
Hypothesis UU : dot u u = 1.
Hypothesis UZ : dot u z = 0.
Definition fr_z1 : vec := vsub (smul (cos th) z) (smul (sin th) u).
Definition fr_w : vec := vadd (smul (sin th) z) (smul (cos th) u).
Lemma fr_z1_unit : dot fr_z1 fr_z1 = 1.
Proof.
  unfold fr_z1. pose proof (sc1 th) as S. set (c := cos th) in *. set (s := sin th) in *. clearbody c s.
  transitivity (c * c * dot z z + s * s * dot u u - 2 * c * s * dot u z);
    [destruct z, u; vec_simpl; ring|rewrite ZZ, UU, UZ; lra].
Qed.
Lemma fr_w_unit : dot fr_w fr_w = 1.
Proof.
  unfold fr_w. pose proof (sc1 th) as S. set (c := cos th) in *. set (s := sin th) in *. clearbody c s.
  transitivity (s * s * dot z z + c * c * dot u u + 2 * c * s * dot u z);
    [destruct z, u; vec_simpl; ring|rewrite ZZ, UU, UZ; lra].
Qed.
Lemma fr_w_z1 : dot fr_w fr_z1 = 0.
Proof.
  unfold fr_w, fr_z1. set (c := cos th) in *. set (s := sin th) in *. clearbody c s.
  transitivity (s * c * dot z z - c * s * dot u u + (c * c - s * s) * dot u z);
    [destruct z, u; vec_simpl; ring|rewrite ZZ, UU, UZ; lra].
Qed.
Lemma fr_z_z1 : dot z fr_z1 = cos th.
Proof.
  unfold fr_z1. transitivity (cos th * dot z z - sin th * dot u z);
    [destruct z, u; vec_simpl; ring|rewrite ZZ, UZ; ring].
Qed.
Lemma fr_u_z1 : dot u fr_z1 = - sin th.
Proof.
  unfold fr_z1. transitivity (cos th * dot u z - sin th * dot u u);
    [destruct z, u; vec_simpl; ring|rewrite UU, UZ; ring].
Qed.
Lemma fr_z_rem : vsub z (smul (cos th) fr_z1) = smul (sin th) fr_w.
Proof.
  unfold fr_z1, fr_w. pose proof (sc1 th) as S. set (c := cos th) in *. set (s := sin th) in *. clearbody c s.
  destruct z as [z1 z2 z3], u as [u1 u2 u3]. clear ZZ UU UZ.
  apply vec_eq; vec_simpl; [replace z1 with ((s*s+c*c)*z1) at 1|replace z2 with ((s*s+c*c)*z2) at 1
    |replace z3 with ((s*s+c*c)*z3) at 1]; try ring; rewrite S; ring.
Qed.
Lemma fr_z1_rem : vsub fr_z1 (smul (cos th) z) = smul (- sin th) u.
Proof.
  unfold fr_z1. clear ZZ UU UZ. set (c := cos th). set (s := sin th). clearbody c s.
  destruct z, u. apply vec_eq; vec_simpl; ring.
Qed.
End Frame.

(** The pitch point: on the pitch circle of gear 2, in the target direction. *)
Definition pitch_point (o : igear) (target : vec) : vec :=
  vadd (base_of o) (smul (pitch_r o) (target_in_plane o (normalize target))).
(** The pitch cones fit together (same distance from apex to pitch circle). *)
Definition matched (g o : igear) (gam1 gam2 : R) : Prop := pitch_r g / sin gam1 = pitch_r o / sin gam2.

Lemma bevel_frame g o sg so a target bl bias g' n1 n2 gam1 gam2 :
  conical g n1 gam1 -> conical o n2 gam2 ->
  / 10 ^ 12 <= norm (project_plane (normalize target) (axis_of o)) ->
  ig_mesh_to g o sg so a target bl bias = Ok g' ->
  let th := shaft_angle (ip_inside (ig_in g)) (ip_inside (ig_in o)) gam1 gam2 in
  let z := axis_of o in let u := target_in_plane o (normalize target) in
  dot z z = 1 /\ dot u u = 1 /\ dot u z = 0 /\ axis_of g' = fr_z1 z u th /\ pitch_r g' = pitch_r g /\
  base_of g' = vadd (apex_of o gam2) (smul (- (pitch_r g / sin gam1 * cos gam1)) (fr_z1 z u th)).
Proof.
  intros H1 H2 HT HM th z u.
  destruct (mesh_to_bevel _ _ _ _ _ _ _ _ _ _ _ _ _ H1 H2 HT HM) as (IN & CO & OR & AX & CE & AN).
  cbn zeta in *. fold th in AX. fold z u in AX. rewrite AX in CE.
  assert (T12 : 0 < / 10 ^ 12) by (apply Rinv_0_lt_compat; lra).
  destruct (target_in_plane_spec o n2 gam2 (normalize target) H2 ltac:(lra)) as (UU & UZ & _). cbn zeta in *.
  split; [apply col3_unit; apply (co_orient _ _ _ H2)|].
  split; [exact UU|]. split; [exact UZ|]. split; [exact AX|].
  split; [unfold pitch_r; rewrite IN; reflexivity|exact CE].
Qed.

(** Cone geometry after mesh_to. *)
Theorem C48_apex_and_axes g o sg so a target bl bias n1 n2 gam1 gam2 :
  conical g n1 gam1 -> conical o n2 gam2 ->
  / 10 ^ 12 <= norm (project_plane (normalize target) (axis_of o)) ->
  exists g', ig_mesh_to g o sg so a target bl bias = Ok g' /\
  let th := shaft_angle (ip_inside (ig_in g)) (ip_inside (ig_in o)) gam1 gam2 in
  apex_of g' gam1 = apex_of o gam2 /\
  dot (axis_of g') (axis_of o) = cos th /\
  dot (axis_of g') (target_in_plane o (normalize target)) = - sin th /\
  conical g' n1 gam1 /\ ig_in g' = ig_in g /\
  (rotation (g_orient (k_trf (ig_core o))) -> rotation (g_orient (k_trf (ig_core g')))).
Proof.
  intros H1 H2 HT.
  destruct (mesh_to_bevel_ok g o sg so a target bl bias _ _ _ _ H1 H2 HT) as (g' & HM).
  exists g'. split; [exact HM|]. intros th.
  destruct (mesh_to_bevel _ _ _ _ _ _ _ _ _ _ _ _ _ H1 H2 HT HM) as (IN & CO & OR & _ & _ & _).
  destruct (bevel_frame _ _ _ _ _ _ _ _ _ _ _ _ _ H1 H2 HT HM) as (ZZ & UU & UZ & AX & PR & BA).
  cbn zeta in *. fold th in AX, BA, OR. set (z := axis_of o) in *. set (u := target_in_plane o _) in *.
  split; [|split; [|split; [|split; [|split]]]].
  - unfold apex_of at 1. rewrite BA, AX, PR. pose proof (sin_gam _ _ _ H1).
    replace (pitch_r g * cos gam1 / sin gam1) with (pitch_r g / sin gam1 * cos gam1) by (field; lra).
    generalize (apex_of o gam2) (fr_z1 z u th) (pitch_r g / sin gam1 * cos gam1). intros p q k. vec_ring.
  - rewrite AX, dot_comm. apply fr_z_z1; assumption.
  - rewrite AX, dot_comm. apply fr_u_z1; assumption.
  - exact CO.
  - exact IN.
  - intros RO. rewrite OR. apply rotation_mmul; [|exact RO].
    apply rotation_rodrigues. apply norm_unit, cross_unit; assumption.
Qed.

(** The vector from the centre of the moved gear to the pitch point. *)
Lemma pitch_point_from_1 g o sg so a target bl bias g' n1 n2 gam1 gam2 :
  conical g n1 gam1 -> conical o n2 gam2 ->
  / 10 ^ 12 <= norm (project_plane (normalize target) (axis_of o)) ->
  ig_mesh_to g o sg so a target bl bias = Ok g' -> matched g o gam1 gam2 ->
  let ring := orb (ip_inside (ig_in g)) (ip_inside (ig_in o)) in
  let th := shaft_angle (ip_inside (ig_in g)) (ip_inside (ig_in o)) gam1 gam2 in
  let w := fr_w (axis_of o) (target_in_plane o (normalize target)) th in
  vsub (pitch_point o target) (base_of g') = smul (if ring then pitch_r g else - pitch_r g) w.
Proof.
  intros H1 H2 HT HM MA ring th w.
  destruct (bevel_frame _ _ _ _ _ _ _ _ _ _ _ _ _ H1 H2 HT HM) as (ZZ & UU & UZ & AX & PR & BA).
  cbn zeta in *. fold th in AX, BA. unfold w.
  pose proof (sin_gam _ _ _ H1) as S1. pose proof (sin_gam _ _ _ H2) as S2. unfold matched in MA.
  unfold pitch_point. rewrite BA. unfold apex_of.
  assert (R1 : pitch_r g = pitch_r o / sin gam2 * sin gam1) by (rewrite <- MA; field; lra).
  assert (R2 : pitch_r o = pitch_r o / sin gam2 * sin gam2) by (field; lra).
  replace (pitch_r o * cos gam2 / sin gam2) with (pitch_r o / sin gam2 * cos gam2) by (field; lra).
  rewrite MA. set (rc := pitch_r o / sin gam2) in *. rewrite R1, R2. clear R1 R2 MA BA PR AX HM HT.
  clearbody rc. unfold fr_z1, fr_w, shaft_angle in *.
  set (z := axis_of o) in *. set (u := target_in_plane o (normalize target)) in *. set (b := base_of o).
  clearbody z u b. unfold th. fold ring. clear th w ZZ UU UZ H1 H2.
  pose proof (sc1 gam1) as E1.
  assert (D1 : sin gam1 * sin gam1 = 1 - cos gam1 * cos gam1) by lra.
  destruct ring.
  - rewrite sin_minus, cos_minus. set (c1 := cos gam1) in *. set (s1 := sin gam1) in *.
    set (c2 := cos gam2) in *. set (s2 := sin gam2) in *. clearbody c1 s1 c2 s2.
    destruct z as [z1 z2 z3], u as [u1 u2 u3], b.
    apply vec_eq; vec_simpl; apply Rminus_diag_uniq.
    + transitivity (rc * (c1*c1 + s1*s1 - 1) * (c2 * z1 - s2 * u1)); [ring|rewrite D1; ring].
    + transitivity (rc * (c1*c1 + s1*s1 - 1) * (c2 * z2 - s2 * u2)); [ring|rewrite D1; ring].
    + transitivity (rc * (c1*c1 + s1*s1 - 1) * (c2 * z3 - s2 * u3)); [ring|rewrite D1; ring].
  - rewrite sin_plus, cos_plus. set (c1 := cos gam1) in *. set (s1 := sin gam1) in *.
    set (c2 := cos gam2) in *. set (s2 := sin gam2) in *. clearbody c1 s1 c2 s2.
    destruct z as [z1 z2 z3], u as [u1 u2 u3], b.
    apply vec_eq; vec_simpl; apply Rminus_diag_uniq.
    + transitivity (rc * (c1*c1 + s1*s1 - 1) * (c2 * z1 - s2 * u1)); [ring|rewrite D1; ring].
    + transitivity (rc * (c1*c1 + s1*s1 - 1) * (c2 * z2 - s2 * u2)); [ring|rewrite D1; ring].
    + transitivity (rc * (c1*c1 + s1*s1 - 1) * (c2 * z3 - s2 * u3)); [ring|rewrite D1; ring].
Qed.

(** Matched pitch cones touch in the target direction: the pitch point is on both pitch circles. *)
Theorem C48_pitch_circles_touch g o sg so a target bl bias g' n1 n2 gam1 gam2 :
  conical g n1 gam1 -> conical o n2 gam2 ->
  / 10 ^ 12 <= norm (project_plane (normalize target) (axis_of o)) ->
  ig_mesh_to g o sg so a target bl bias = Ok g' -> matched g o gam1 gam2 ->
  on_pitch_circle o (pitch_point o target) /\ on_pitch_circle g' (pitch_point o target).
Proof.
  intros H1 H2 HT HM MA.
  destruct (bevel_frame _ _ _ _ _ _ _ _ _ _ _ _ _ H1 H2 HT HM) as (ZZ & UU & UZ & AX & PR & BA).
  pose proof (pitch_point_from_1 _ _ _ _ _ _ _ _ _ _ _ _ _ H1 H2 HT HM MA) as PP. cbn zeta in *.
  set (th := shaft_angle _ _ _ _) in *. set (z := axis_of o) in *. set (u := target_in_plane o _) in *.
  pose proof (pitch_r_pos _ _ _ H1) as P1. pose proof (pitch_r_pos _ _ _ H2) as P2.
  split; unfold on_pitch_circle.
  - fold z. unfold pitch_point. fold u.
    replace (vsub (vadd (base_of o) (smul (pitch_r o) u)) (base_of o)) with (smul (pitch_r o) u)
      by (generalize (base_of o) u; intros; vec_ring).
    rewrite norm_smul, (norm_unit _ UU), Rabs_right, dot_smul_l, UZ by lra. split; ring.
  - rewrite PP, AX, PR, norm_smul, (norm_unit _ (fr_w_unit _ _ th ZZ UU UZ)), dot_smul_l,
      (fr_w_z1 _ _ th ZZ UU UZ). split; [|ring].
    destruct (orb _ _); [rewrite Rabs_right by lra|rewrite Rabs_left by lra]; ring.
Qed.

Lemma bevel_dirs g o sg so a target bl bias g' n1 n2 gam1 gam2 :
  conical g n1 gam1 -> conical o n2 gam2 ->
  / 10 ^ 12 <= norm (project_plane (normalize target) (axis_of o)) ->
  ig_mesh_to g o sg so a target bl bias = Ok g' -> matched g o gam1 gam2 ->
  let ring := orb (ip_inside (ig_in g)) (ip_inside (ig_in o)) in
  let th := shaft_angle (ip_inside (ig_in g)) (ip_inside (ig_in o)) gam1 gam2 in
  let u := target_in_plane o (normalize target) in
  let w := fr_w (axis_of o) u th in
  let d := vsub (base_of o) (base_of g') in
  let rc := pitch_r o / sin gam2 in
  dot u u = 1 /\ dot w w = 1 /\ 0 < rc /\
  project_plane d (axis_of g') = smul (- (rc * cos gam2 * sin th)) w /\
  project_plane d (axis_of o) = smul (- (rc * cos gam1 * sin th)) u /\
  project_plane (vsub (pitch_point o target) (base_of g')) (axis_of g') =
    smul (if ring then pitch_r g else - pitch_r g) w /\
  project_plane (vsub (pitch_point o target) (base_of o)) (axis_of o) = smul (pitch_r o) u.
Proof.
  intros H1 H2 HT HM MA ring th u w d rc.
  destruct (bevel_frame _ _ _ _ _ _ _ _ _ _ _ _ _ H1 H2 HT HM) as (ZZ & UU & UZ & AX & PR & BA).
  pose proof (pitch_point_from_1 _ _ _ _ _ _ _ _ _ _ _ _ _ H1 H2 HT HM MA) as PP. cbn zeta in *.
  fold th ring u in AX, BA, PP. fold u in UU, UZ. fold w in PP. unfold matched in MA. fold rc in MA. rewrite MA in BA.
  pose proof (sin_gam _ _ _ H1) as S1. pose proof (sin_gam _ _ _ H2) as S2.
  pose proof (pitch_r_pos _ _ _ H2) as P2.
  assert (WU := fr_w_unit _ _ th ZZ UU UZ). fold w in WU.
  assert (WZ := fr_w_z1 _ _ th ZZ UU UZ). fold w in WZ.
  split; [exact UU|]. split; [exact WU|].
  assert (RC : 0 < rc) by (apply Rdiv_lt_0_compat; assumption). split; [exact RC|].
  set (z := axis_of o) in *. set (z1 := fr_z1 z u th) in *.
  assert (ZF : fr_z1 z u th = z1) by reflexivity. assert (WF : fr_w z u th = w) by reflexivity.
  assert (DE : d = vadd (smul (rc * cos gam1) z1) (smul (- (rc * cos gam2)) z)).
  { unfold d. rewrite BA. unfold apex_of. fold z.
    replace (pitch_r o * cos gam2 / sin gam2) with (rc * cos gam2) by (unfold rc; field; lra).
    generalize (rc * cos gam2) (rc * cos gam1) z z1 (base_of o). intros. vec_ring. }
  split; [|split; [|split]].
  - rewrite AX, DE.
    rewrite (project_comb _ _ (cos th) z1 z w (sin th)).
    + f_equal. ring.
    + unfold z1. apply fr_z1_unit; assumption.
    + unfold z1. apply fr_z_z1; assumption.
    + rewrite <- WF. unfold z1. apply fr_z_rem; assumption.
  - rewrite DE, vadd_comm.
    rewrite (project_comb _ _ (cos th) z z1 u (- sin th)).
    + f_equal. ring.
    + exact ZZ.
    + rewrite dot_comm. unfold z1. apply fr_z_z1; assumption.
    + unfold z1. apply fr_z1_rem; assumption.
  - rewrite PP, AX. unfold project_plane. rewrite dot_smul_l, WZ.
    generalize (if ring then pitch_r g else - pitch_r g) w z1. intros. vec_ring.
  - unfold pitch_point. fold u.
    replace (vsub (vadd (base_of o) (smul (pitch_r o) u)) (base_of o)) with (smul (pitch_r o) u)
      by (generalize (base_of o) u; intros; vec_ring).
    unfold project_plane. rewrite dot_smul_l, UZ. generalize (pitch_r o) u z. intros. vec_ring.
Qed.

Lemma at_own_angle T x : g_angle T = x -> at_angle T x = T.
Proof. intros <-. destruct T. reflexivity. Qed.
Lemma smul_unit_neq k v : k <> 0 -> dot v v = 1 -> smul k v <> ORIGIN.
Proof.
  intros Hk Hv E. apply (f_equal (fun q => dot q v)) in E. rewrite dot_smul_l, Hv in E.
  vec_simpl. lra.
Qed.

(** External pair with acute pitch cones: at every moment of the rolling motion a tooth of the
    moved gear is at the pitch point exactly when a gap of the other gear is. *)
Theorem C48_tooth_meets_gap g o sg so a target bl bias g' n1 n2 gam1 gam2 :
  conical g n1 gam1 -> conical o n2 gam2 ->
  / 10 ^ 12 <= norm (project_plane (normalize target) (axis_of o)) ->
  ig_mesh_to g o sg so a target bl bias = Ok g' -> matched g o gam1 gam2 ->
  ip_inside (ig_in g) = false -> ip_inside (ig_in o) = false ->
  gam1 < PI / 2 -> gam2 < PI / 2 -> / 10 ^ 12 <= norm (vsub (base_of o) (base_of g')) ->
  let T1 := k_trf (ig_core g') in let T2 := k_trf (ig_core o) in
  let P := pitch_point o target in
  forall x, tooth_at (turned T1 n1 x) n1 (vsub P (base_of g')) <->
            gap_at (turned T2 n2 (- x)) n2 (vsub P (base_of o)).
Proof.
  intros H1 H2 HT HM MA R1 R2 A1 A2 HD T1 T2 P x.
  destruct (bevel_dirs _ _ _ _ _ _ _ _ _ _ _ _ _ H1 H2 HT HM MA) as (UU & WU & RC & D1 & D2 & Q1 & Q2).
  destruct (mesh_to_bevel _ _ _ _ _ _ _ _ _ _ _ _ _ H1 H2 HT HM) as (_ & CO & _ & _ & _ & AN).
  cbn zeta in *. rewrite R1, R2 in *. cbn [orb] in *.
  fold T1 T2 in AN. fold P in Q1, Q2.
  pose proof (co_gam _ _ _ H1) as G1. pose proof (co_gam _ _ _ H2) as G2.
  pose proof (pitch_r_pos _ _ _ H1) as P1. pose proof (pitch_r_pos _ _ _ H2) as P2.
  unfold shaft_angle in *. cbn [orb] in *.
  assert (ST : 0 < sin (gam1 + gam2)) by (apply sin_gt_0; lra).
  assert (C1 : 0 < cos gam1) by (apply cos_gt_0; lra). assert (C2 : 0 < cos gam2) by (apply cos_gt_0; lra).
  set (s := sin (gam1 + gam2)) in *. set (u := target_in_plane o _) in *. set (w := fr_w _ _ _) in *.
  set (rc := pitch_r o / sin gam2) in *. clearbody rc s.
  assert (CL : centre_line T1 T2 = vsub (base_of o) (base_of g')).
  { unfold centre_line. change (g_center T2) with (base_of o). change (g_center T1) with (base_of g').
    destruct (Rlt_dec _ _); [lra|reflexivity]. }
  set (d := vsub (base_of o) (base_of g')) in *.
  assert (K1 : 0 < rc * cos gam2 * s) by (repeat apply Rmult_lt_0_compat; assumption).
  assert (K2 : 0 < rc * cos gam1 * s) by (repeat apply Rmult_lt_0_compat; assumption).
  assert (D2' : project_plane (vopp d) (axis_of o) = smul (rc * cos gam1 * s) u).
  { replace (project_plane (vopp d) (axis_of o)) with (vopp (project_plane d (axis_of o)))
      by (unfold project_plane; generalize d (axis_of o); intros; vec_ring).
    rewrite D2. generalize u (rc * cos gam1 * s). intros. vec_ring. }
  assert (O1 : off_axis d T1).
  { unfold off_axis. change (g_z_axis T1) with (axis_of g'). rewrite D1. apply smul_unit_neq; [lra|exact WU]. }
  assert (O2 : off_axis (vopp d) T2).
  { unfold off_axis. change (g_z_axis T2) with (axis_of o). rewrite D2'. apply smul_unit_neq; [lra|exact UU]. }
  pose proof (C44_tooth_meets_gap T1 T2 n1 n2 (co_n _ _ _ H1) (co_n _ _ _ H2) (co_orient _ _ _ CO)
    (co_orient _ _ _ H2)) as PH. cbn zeta in PH. rewrite CL in PH. specialize (PH O1 O2 x).
  rewrite (at_own_angle T1 _ AN) in PH.
  transitivity (tooth_at (turned T1 n1 x) n1 d).
  { apply (tooth_at_dir _ _ _ _ (pitch_r g / (rc * cos gam2 * s))); [apply Rdiv_lt_0_compat; assumption|].
    change (g_z_axis (turned T1 n1 x)) with (axis_of g'). rewrite Q1, D1, smul_smul. f_equal. field. repeat split; nra. }
  rewrite PH.
  symmetry. apply (tooth_at_dir _ _ _ _ (pitch_r o / (rc * cos gam1 * s))); [apply Rdiv_lt_0_compat; assumption|].
  change (g_z_axis (turned T2 n2 (- x))) with (axis_of o). rewrite Q2, D2', smul_smul. f_equal. field. repeat split; nra.
Qed.

(** Ring pairs (one of the two is a ring, whose cone is the wider): pinion teeth meet ring tooth
    spaces (drawn at the ring's tooth positions), both turning in the same sense. *)
Theorem C48_ring_mesh g o sg so a target bl bias g' n1 n2 gam1 gam2 :
  conical g n1 gam1 -> conical o n2 gam2 ->
  / 10 ^ 12 <= norm (project_plane (normalize target) (axis_of o)) ->
  ig_mesh_to g o sg so a target bl bias = Ok g' -> matched g o gam1 gam2 ->
  (ip_inside (ig_in g) = true /\ ip_inside (ig_in o) = false /\ gam2 < gam1) \/
  (ip_inside (ig_in g) = false /\ ip_inside (ig_in o) = true /\ gam1 < gam2) ->
  gam1 < PI / 2 -> gam2 < PI / 2 -> / 10 ^ 12 <= norm (vsub (base_of o) (base_of g')) ->
  let T1 := k_trf (ig_core g') in let T2 := k_trf (ig_core o) in
  let P := pitch_point o target in
  forall x, tooth_at (turned T1 n1 x) n1 (vsub P (base_of g')) <->
            tooth_at (turned T2 n2 x) n2 (vsub P (base_of o)).
Proof.
  intros H1 H2 HT HM MA RR A1 A2 HD T1 T2 P x.
  destruct (bevel_dirs _ _ _ _ _ _ _ _ _ _ _ _ _ H1 H2 HT HM MA) as (UU & WU & RC & D1 & D2 & Q1 & Q2).
  destruct (mesh_to_bevel _ _ _ _ _ _ _ _ _ _ _ _ _ H1 H2 HT HM) as (_ & CO & _ & _ & _ & AN).
  cbn zeta in *. fold T1 T2 in AN. fold P in Q1, Q2.
  pose proof (co_gam _ _ _ H1) as G1. pose proof (co_gam _ _ _ H2) as G2.
  pose proof (pitch_r_pos _ _ _ H1) as P1. pose proof (pitch_r_pos _ _ _ H2) as P2.
  set (ring1 := ip_inside (ig_in g)) in *. set (ring2 := ip_inside (ig_in o)) in *.
  assert (RG : orb ring1 ring2 = true) by (destruct RR as [(-> & -> & _)|(-> & -> & _)]; reflexivity).
  unfold shaft_angle in *. rewrite RG in *.
  assert (C1 : 0 < cos gam1) by (apply cos_gt_0; lra). assert (C2 : 0 < cos gam2) by (apply cos_gt_0; lra).
  set (e := if ring1 then 1 else -1).
  assert (EE : e * e = 1) by (unfold e; destruct ring1; ring).
  assert (ST : 0 < - e * sin (gam2 - gam1)).
  { unfold e. destruct RR as [(-> & _ & L)|(-> & _ & L)].
    - replace (gam2 - gam1) with (- (gam1 - gam2)) by ring. rewrite sin_neg.
      assert (0 < sin (gam1 - gam2)) by (apply sin_gt_0; lra). lra.
    - assert (0 < sin (gam2 - gam1)) by (apply sin_gt_0; lra). lra. }
  set (s := sin (gam2 - gam1)) in *. set (u := target_in_plane o _) in *. set (w := fr_w _ _ _) in *.
  set (rc := pitch_r o / sin gam2) in *. clearbody rc s.
  assert (CL : centre_line T1 T2 = vsub (base_of o) (base_of g')).
  { unfold centre_line. change (g_center T2) with (base_of o). change (g_center T1) with (base_of g').
    destruct (Rlt_dec _ _); [lra|reflexivity]. }
  assert (ES : e <> 0 /\ s <> 0) by (split; intros X; rewrite X in ST; lra).
  set (d := vsub (base_of o) (base_of g')) in *.
  assert (K1 : 0 < rc * cos gam2 * (- e * s)) by (apply Rmult_lt_0_compat; [apply Rmult_lt_0_compat; assumption|exact ST]).
  assert (K2 : 0 < rc * cos gam1 * (- e * s)) by (apply Rmult_lt_0_compat; [apply Rmult_lt_0_compat; assumption|exact ST]).
  assert (DD : (if ring1 then d else vopp d) = smul e d).
  { unfold e. destruct ring1; generalize d; intros; vec_ring. }
  assert (PE : forall q, project_plane (smul e d) q = smul e (project_plane d q)).
  { intros. unfold project_plane. generalize e d q. intros. vec_ring. }
  assert (D1' : project_plane (smul e d) (axis_of g') = smul (rc * cos gam2 * (- e * s)) w).
  { rewrite PE, D1, smul_smul. f_equal. ring. }
  assert (D2' : project_plane (smul e d) (axis_of o) = smul (rc * cos gam1 * (- e * s)) u).
  { rewrite PE, D2, smul_smul. f_equal. ring. }
  assert (O1 : off_axis (smul e d) T1).
  { unfold off_axis. change (g_z_axis T1) with (axis_of g'). rewrite D1'. apply smul_unit_neq; [lra|exact WU]. }
  assert (O2 : off_axis (smul e d) T2).
  { unfold off_axis. change (g_z_axis T2) with (axis_of o). rewrite D2'. apply smul_unit_neq; [lra|exact UU]. }
  pose proof (C44_ring_mesh T1 T2 n1 n2 ring1 ring2 RG (co_n _ _ _ H1) (co_n _ _ _ H2) (co_orient _ _ _ CO)
    (co_orient _ _ _ H2)) as PH. cbn zeta in PH. rewrite CL, DD in PH. specialize (PH O1 O2 x).
  rewrite (at_own_angle T1 _ AN) in PH.
  transitivity (tooth_at (turned T1 n1 x) n1 (smul e d)).
  { apply (tooth_at_dir _ _ _ _ (pitch_r g / (rc * cos gam2 * (- e * s)))); [apply Rdiv_lt_0_compat; assumption|].
    change (g_z_axis (turned T1 n1 x)) with (axis_of g'). rewrite Q1, D1', smul_smul. f_equal. field. repeat split; try apply ES; lra. }
  rewrite PH.
  symmetry. apply (tooth_at_dir _ _ _ _ (pitch_r o / (rc * cos gam1 * (- e * s)))); [apply Rdiv_lt_0_compat; assumption|].
  change (g_z_axis (turned T2 n2 x)) with (axis_of o). rewrite Q2, D2', smul_smul. f_equal. field. repeat split; try apply ES; lra.
Qed.

(** ** Where the placement goes wrong *)

Lemma vopp_vopp v : vopp (vopp v) = v. Proof. vec_ring. Qed.
Lemma points_at_opp T x d : points_at T x (vopp d) <-> points_at T (x + PI) d.
Proof.
  assert (PV : project_plane (vopp d) (g_z_axis T) = vopp (project_plane d (g_z_axis T))).
  { unfold project_plane. generalize (g_z_axis T). intros. vec_ring. }
  split; intros (l & Hl & E); exists l; (split; [exact Hl|]).
  - rewrite PV in E. rewrite dir_pi. rewrite <- (vopp_vopp (project_plane d (g_z_axis T))), E.
    generalize (dir (g_orient T) x). intros. vec_ring.
  - rewrite PV, E, dir_pi. generalize (dir (g_orient T) x). intros. vec_ring.
Qed.
Lemma odd_opp T n d : (0 < n)%Z -> Z.odd n = true -> (tooth_at T n d <-> gap_at T n (vopp d)).
Proof.
  intros Hn Ho. apply Z.odd_spec in Ho. destruct Ho as (m & Hm).
  assert (N : 0 < IZR n) by (apply IZR_lt, Hn).
  assert (NE : IZR n = 2 * IZR m + 1) by (rewrite Hm, plus_IZR, mult_IZR; reflexivity).
  assert (HP : PI = (IZR m + 1 / 2) * (2 * PI / IZR n)).
  { replace (IZR m + 1 / 2) with (IZR n / 2) by lra. field. lra. }
  split; intros (k & Hk).
  - exists (k - m - 1)%Z. apply points_at_opp. rewrite !minus_IZR.
    replace (g_angle T + (IZR k - IZR m - 1 + 1 / 2) * (2 * PI / IZR n) + PI) with
      (g_angle T + IZR k * (2 * PI / IZR n)); [exact Hk|]. rewrite HP at 3. field. lra.
  - apply points_at_opp in Hk. exists (k + m + 1)%Z. rewrite !plus_IZR.
    replace (g_angle T + (IZR k + IZR m + 1) * (2 * PI / IZR n)) with
      (g_angle T + (IZR k + 1 / 2) * (2 * PI / IZR n) + PI); [exact Hk|]. rewrite HP at 2. field. lra.
Qed.
Lemma gap_is_tooth T n x d : gap_at (turned T n x) n d <-> tooth_at (turned T n (x + 1 / 2)) n d.
Proof.
  unfold gap_at, tooth_at. cbn [turned g_angle].
  assert (E : forall k : Z, g_angle T + x * (2 * PI / IZR n) + (IZR k + 1 / 2) * (2 * PI / IZR n) =
                        g_angle T + (x + 1 / 2) * (2 * PI / IZR n) + IZR k * (2 * PI / IZR n)) by (intros; ring).
  split; intros (k & Hk); exists k; [rewrite <- E|rewrite E]; exact Hk.
Qed.
Lemma gap_is_tooth' T n x d : gap_at (turned T n (x - 1 / 2)) n d <-> tooth_at (turned T n x) n d.
Proof. rewrite gap_is_tooth. replace (x - 1 / 2 + 1 / 2) with x by ring. reflexivity. Qed.

(** A gear meshed with one whose pitch cone is obtuse is phased for the opposite side of its
    axis: with an odd tooth number, tooth falls on tooth. *)
Theorem C48_obtuse_refuted g o sg so a target bl bias g' n1 n2 gam1 gam2 :
  conical g n1 gam1 -> conical o n2 gam2 ->
  / 10 ^ 12 <= norm (project_plane (normalize target) (axis_of o)) ->
  ig_mesh_to g o sg so a target bl bias = Ok g' -> matched g o gam1 gam2 ->
  ip_inside (ig_in g) = false -> ip_inside (ig_in o) = false ->
  gam1 < PI / 2 -> PI / 2 < gam2 -> gam1 + gam2 < PI ->
  / 10 ^ 12 <= norm (vsub (base_of o) (base_of g')) -> Z.odd n1 = true ->
  let T1 := k_trf (ig_core g') in let T2 := k_trf (ig_core o) in
  let P := pitch_point o target in
  forall x, tooth_at (turned T1 n1 x) n1 (vsub P (base_of g')) <->
            tooth_at (turned T2 n2 (- x)) n2 (vsub P (base_of o)).
Proof.
  intros H1 H2 HT HM MA R1 R2 A1 A2 A12 HD OD T1 T2 P x.
  destruct (bevel_dirs _ _ _ _ _ _ _ _ _ _ _ _ _ H1 H2 HT HM MA) as (UU & WU & RC & D1 & D2 & Q1 & Q2).
  destruct (mesh_to_bevel _ _ _ _ _ _ _ _ _ _ _ _ _ H1 H2 HT HM) as (_ & CO & _ & _ & _ & AN).
  cbn zeta in *. rewrite R1, R2 in *. cbn [orb] in *.
  fold T1 T2 in AN. fold P in Q1, Q2.
  pose proof (co_gam _ _ _ H1) as G1. pose proof (co_gam _ _ _ H2) as G2.
  pose proof (pitch_r_pos _ _ _ H1) as P1. pose proof (pitch_r_pos _ _ _ H2) as P2.
  unfold shaft_angle in *. cbn [orb] in *.
  assert (ST : 0 < sin (gam1 + gam2)) by (apply sin_gt_0; lra).
  assert (C1 : 0 < cos gam1) by (apply cos_gt_0; lra). assert (C2 : cos gam2 < 0) by (apply cos_lt_0; lra).
  set (s := sin (gam1 + gam2)) in *. set (u := target_in_plane o _) in *. set (w := fr_w _ _ _) in *.
  set (rc := pitch_r o / sin gam2) in *. clearbody rc s.
  assert (CL : centre_line T1 T2 = vsub (base_of o) (base_of g')).
  { unfold centre_line. change (g_center T2) with (base_of o). change (g_center T1) with (base_of g').
    destruct (Rlt_dec _ _); [lra|reflexivity]. }
  set (d := vsub (base_of o) (base_of g')) in *.
  assert (K1 : 0 < rc * (- cos gam2) * s) by (apply Rmult_lt_0_compat; [apply Rmult_lt_0_compat; lra|assumption]).
  assert (K2 : 0 < rc * cos gam1 * s) by (repeat apply Rmult_lt_0_compat; assumption).
  assert (PO : forall v q, project_plane (vopp v) q = vopp (project_plane v q))
    by (intros; unfold project_plane; vec_ring).
  assert (D2' : project_plane (vopp d) (axis_of o) = smul (rc * cos gam1 * s) u).
  { rewrite PO, D2. generalize u (rc * cos gam1 * s). intros. vec_ring. }
  assert (O1 : off_axis d T1).
  { unfold off_axis. change (g_z_axis T1) with (axis_of g'). rewrite D1. apply smul_unit_neq; [lra|exact WU]. }
  assert (O2 : off_axis (vopp d) T2).
  { unfold off_axis. change (g_z_axis T2) with (axis_of o). rewrite D2'. apply smul_unit_neq; [lra|exact UU]. }
  pose proof (C44_tooth_meets_gap T1 T2 n1 n2 (co_n _ _ _ H1) (co_n _ _ _ H2) (co_orient _ _ _ CO)
    (co_orient _ _ _ H2)) as PH. cbn zeta in PH. rewrite CL in PH. specialize (PH O1 O2 (x + 1 / 2)).
  rewrite (at_own_angle T1 _ AN) in PH.
  rewrite (odd_opp _ _ _ (co_n _ _ _ H1) OD).
  transitivity (gap_at (turned T1 n1 x) n1 d).
  { apply (tooth_at_dir _ _ _ _ (pitch_r g / (rc * (- cos gam2) * s))); [apply Rdiv_lt_0_compat; assumption|].
    change (g_z_axis (turned T1 n1 x)) with (axis_of g'). rewrite PO, Q1, D1, smul_smul.
    replace (vopp (smul (- pitch_r g) w)) with (smul (pitch_r g) w) by (generalize w (pitch_r g); intros; vec_ring).
    f_equal. field. repeat split; lra. }
  rewrite gap_is_tooth, PH.
  replace (- (x + 1 / 2)) with (- x - 1 / 2) by ring. rewrite gap_is_tooth'.
  symmetry. apply (tooth_at_dir _ _ _ _ (pitch_r o / (rc * cos gam1 * s))); [apply Rdiv_lt_0_compat; assumption|].
  change (g_z_axis (turned T2 n2 (- x))) with (axis_of o). rewrite Q2, D2', smul_smul. f_equal. field. repeat split; lra.
Qed.

(** A target along the axis of the other gear has no placement. *)
Theorem C48_parallel_target g o sg so a target bl bias n1 n2 gam1 gam2 :
  conical g n1 gam1 -> conical o n2 gam2 ->
  project_plane (normalize target) (axis_of o) = ORIGIN ->
  ig_mesh_to g o sg so a target bl bias = Err ZeroDivisionError.
Proof.
  intros H1 H2 HT.
  unfold ig_mesh_to, normalize_r at 1. destruct (Req_EM_T (norm target) 0) as [Z|Z]; [reflexivity|].
  cbn [bind]. set (t := normalize target) in *.
  assert (K1 : k_cone (ig_core g) = 2 * gam1) by (rewrite (co_core _ _ _ H1); apply (co_cone _ _ _ H1)).
  pose proof (co_gam _ _ _ H1) as G1.
  rewrite K1. destruct (Req_EM_T (2 * gam1) 0) as [E|_]; [lra|].
  unfold bevel_placement. rewrite (cone_data_con _ _ _ H1), (cone_data_con _ _ _ H2).
  destruct (Req_EM_T (sin _) 0) as [E|_]; [reflexivity|]. destruct (Req_EM_T (sin _) 0) as [E|_]; [reflexivity|].
  cbn [c_trf]. change (t_z_axis (g_base (k_trf (ig_core o)))) with (axis_of o).
  rewrite <- (cross_project t), HT. unfold normalize_r.
  replace (cross ORIGIN (axis_of o)) with ORIGIN by (generalize (axis_of o); intros; vec_ring).
  assert (N0 : norm ORIGIN = 0) by (apply norm_eq; [lra|vec_simpl; ring]).
  rewrite N0. destruct (Req_EM_T 0 0); [reflexivity|lra].
Qed.

(** A cylindrical gear cannot be meshed with a bevel gear, in either order. *)
Theorem C48_one_flat g o sg so a target bl bias n1 n2 gam :
  (cylindrical g n1 /\ conical o n2 gam) \/ (conical g n1 gam /\ cylindrical o n2) ->
  ig_mesh_to g o sg so a target bl bias = Err ZeroDivisionError.
Proof.
  intros H.
  assert (FL : forall h n, cylindrical h n -> k_cone (ig_core h) = 0).
  { intros h n C. rewrite (cy_core _ _ C). apply (cy_cone _ _ C). }
  assert (CF : forall h n c, conical h n c -> k_cone (ig_core h) = 2 * c).
  { intros h n c C. rewrite (co_core _ _ _ C). apply (co_cone _ _ _ C). }
  unfold ig_mesh_to, normalize_r at 1. destruct (Req_EM_T (norm target) 0) as [Z|Z]; [reflexivity|].
  cbn [bind]. unfold bevel_placement.
  assert (GC : forall h, gamma (k_cone_data (ig_core h)) = k_cone (ig_core h) / 2) by reflexivity.
  rewrite !GC. destruct H as [(C & D)|(D & C)].
  - rewrite (FL _ _ C), (CF _ _ _ D). pose proof (co_gam _ _ _ D).
    destruct (Req_EM_T 0 0) as [_|E]; [|lra]. destruct (Req_EM_T (2 * gam) 0) as [E|_]; [lra|].
    replace (0 / 2) with 0 by field. rewrite sin_0. destruct (Req_EM_T 0 0); [reflexivity|lra].
  - rewrite (FL _ _ C), (CF _ _ _ D). pose proof (co_gam _ _ _ D).
    destruct (Req_EM_T (2 * gam) 0) as [E|_]; [lra|].
    destruct (Req_EM_T (sin _) 0) as [E|_]; [reflexivity|].
    replace (0 / 2) with 0 by field. rewrite sin_0. destruct (Req_EM_T 0 0); [reflexivity|lra].
Qed.

(** Backlash and bias have no effect on bevel gears. *)
Theorem C48_backlash_ignored g o sg so a bl bias sg' so' a' bl' bias' target n1 n2 gam1 gam2 :
  conical g n1 gam1 -> conical o n2 gam2 ->
  ig_mesh_to g o sg so a target bl bias = ig_mesh_to g o sg' so' a' target bl' bias'.
Proof.
  intros H1 H2. unfold ig_mesh_to.
  assert (K1 : k_cone (ig_core g) = 2 * gam1) by (rewrite (co_core _ _ _ H1); apply (co_cone _ _ _ H1)).
  pose proof (co_gam _ _ _ H1) as G1.
  rewrite K1. destruct (Req_EM_T (2 * gam1) 0) as [E|_]; [lra|]. reflexivity.
Qed.

(** The centres are at least this far apart. *)
Lemma bevel_distance g o sg so a target bl bias g' n1 n2 gam1 gam2 :
  conical g n1 gam1 -> conical o n2 gam2 ->
  / 10 ^ 12 <= norm (project_plane (normalize target) (axis_of o)) ->
  ig_mesh_to g o sg so a target bl bias = Ok g' -> matched g o gam1 gam2 ->
  let th := shaft_angle (ip_inside (ig_in g)) (ip_inside (ig_in o)) gam1 gam2 in
  pitch_r o / sin gam2 * cos gam1 * sin th <= norm (vsub (base_of o) (base_of g')).
Proof.
  intros H1 H2 HT HM MA th.
  destruct (bevel_dirs _ _ _ _ _ _ _ _ _ _ _ _ _ H1 H2 HT HM MA) as (UU & _ & _ & _ & D2 & _ & _).
  destruct (bevel_frame _ _ _ _ _ _ _ _ _ _ _ _ _ H1 H2 HT HM) as (ZZ & _ & UZ & _).
  cbn zeta in *. fold th in D2. set (u := target_in_plane o _) in *. set (d := vsub _ _) in *.
  set (K := _ * cos gam1 * sin th) in *.
  assert (DU : dot d u = - K).
  { transitivity (dot (project_plane d (axis_of o)) u).
    - unfold project_plane. rewrite dot_vsub_l, dot_smul_l, (dot_comm (axis_of o) u), UZ. ring.
    - rewrite D2, dot_smul_l, UU. ring. }
  assert (X : 0 <= dot (vadd d (smul K u)) (vadd d (smul K u))) by apply dot_nonneg.
  assert (X' : dot (vadd d (smul K u)) (vadd d (smul K u)) = dot d d + 2 * K * dot d u + K * K * dot u u)
    by (generalize d u; intros; vec_ring).
  rewrite X', DU, UU, <- norm_sqr in X. pose proof (norm_nonneg d). nra.
Qed.

(** Examples: a mitre pair, and a ring pair with ratio 2. *)
Definition ex_bevel (n : Z) (gam : R) (inside : bool) : iparam :=
  mkIP (IZR n) 5 0 (2 * gam) ORIGIN 0 2 false 0 0 0 0 1 1.2 (PI / 9) 0 0 inside 0.
Lemma ex_bevel_ok n gam inside : (0 < n)%Z -> 0 < gam < PI ->
  let g := ig_new (ex_bevel n gam inside) in
  conical g n gam /\ pitch_r g = IZR n /\ ip_inside (ig_in g) = inside /\
  / 10 ^ 12 <= norm (project_plane (normalize RIGHT) (axis_of g)) /\
  rotation (g_orient (k_trf (ig_core g))).
Proof.
  intros Hn Hg g. assert (0 < IZR n) by (apply IZR_lt, Hn).
  assert (T12 : / 10 ^ 12 < 1) by lra.
  assert (GE : g = mkIG (ex_bevel n gam inside) (calc_params (ex_bevel n gam inside))).
  { unfold g, ig_new, ip_normalise. cbn [ex_bevel ip_teeth]. destruct (Rlt_dec (IZR n) 0); [lra|reflexivity]. }
  split; [|rewrite GE; split; [|split; [reflexivity|split]]].
  - rewrite <- (Z.abs_eq n) by lia. apply (ig_new_conical (ex_bevel n gam inside) n gam);
      cbn [ex_bevel ip_teeth ip_module ip_cone]; try lra; try reflexivity; try lia.
  - unfold pitch_r. cbn [ig_in ex_bevel ip_module ip_teeth]. field.
  - unfold axis_of, g_z_axis. cbn [ig_core calc_params k_trf g_orient].
    assert (NR : norm RIGHT = 1) by (apply norm_unit; vec_simpl; ring).
    unfold normalize. rewrite NR, Rinv_1, smul_1.
    replace (project_plane RIGHT (col3 UNIT3X3)) with RIGHT by (unfold project_plane; vec_ring).
    rewrite NR. lra.
  - apply rotation_I.
Qed.
Example C48_example : exists g o g' gam1 gam2,
  conical g 17 gam1 /\ conical o 17 gam2 /\ matched g o gam1 gam2 /\ gam1 < PI / 2 /\ gam2 < PI / 2 /\
  ip_inside (ig_in g) = false /\ ip_inside (ig_in o) = false /\
  / 10 ^ 12 <= norm (project_plane (normalize RIGHT) (axis_of o)) /\
  ig_mesh_to g o 0 0 0 RIGHT 0 0 = Ok g' /\ / 10 ^ 12 <= norm (vsub (base_of o) (base_of g')).
Proof.
  pose proof PI_RGT_0.
  destruct (ex_bevel_ok 17 (PI / 4) false ltac:(lia) ltac:(lra)) as (C & PR & IN & TA & RO).
  set (g := ig_new _) in *. assert (MA : matched g g (PI / 4) (PI / 4)) by reflexivity.
  destruct (mesh_to_bevel_ok g g 0 0 0 RIGHT 0 0 _ _ _ _ C C TA) as (g' & HM).
  pose proof (bevel_distance _ _ _ _ _ _ _ _ _ _ _ _ _ C C TA HM MA) as D. cbn zeta in D.
  rewrite IN, PR in D. unfold shaft_angle in D. cbn [orb] in D.
  replace (PI / 4 + PI / 4) with (PI / 2) in D by field.
  rewrite sin_PI2, sin_cos_PI4 in D. pose proof (cos_gt_0 (PI / 4) ltac:(lra) ltac:(lra)).
  replace (17 / cos (PI / 4) * cos (PI / 4) * 1) with 17 in D by (field; lra).
  assert (/ 10 ^ 12 < 1) by lra.
  exists g, g, g', (PI / 4), (PI / 4). repeat (split; [assumption || lra|]). lra.
Qed.
Example C48_backlash_ignored_example :
  let g := ig_new (ex_bevel 17 (PI / 4) false) in
  ig_mesh_to g g 0 0 0 RIGHT 0 0 = ig_mesh_to g g 0 0 0 RIGHT (1 / 10) 1.
Proof.
  pose proof PI_RGT_0. destruct (ex_bevel_ok 17 (PI / 4) false ltac:(lia) ltac:(lra)) as (C & _).
  cbv zeta. exact (C48_backlash_ignored _ _ _ _ _ _ _ _ _ _ _ _ _ _ _ _ _ C C).
Qed.
Example C48_parallel_target_example :
  ig_mesh_to (ig_new (ex_bevel 17 (PI / 4) false)) (ig_new (ex_bevel 17 (PI / 4) false)) 0 0 0 OUT 0 0 = Err ZeroDivisionError.
Proof.
  pose proof PI_RGT_0. destruct (ex_bevel_ok 17 (PI / 4) false ltac:(lia) ltac:(lra)) as (C & _).
  apply (C48_parallel_target _ _ _ _ _ _ _ _ _ _ _ _ C C).
  unfold project_plane, normalize, axis_of. rewrite (norm_eq OUT 1) by (try lra; vec_simpl; ring).
  unfold ig_new, ip_normalise. cbn [ex_bevel ip_teeth]. destruct (Rlt_dec 17 0); [lra|].
  cbn. unfold g_z_axis, col3. cbn. apply vec_eq; vec_simpl; field.
Qed.
Example C48_ring_example : exists g o g' gam1 gam2,
  conical g 12 gam1 /\ conical o 24 gam2 /\ matched g o gam1 gam2 /\ gam1 < gam2 /\ gam2 < PI / 2 /\
  ip_inside (ig_in g) = false /\ ip_inside (ig_in o) = true /\
  / 10 ^ 12 <= norm (project_plane (normalize RIGHT) (axis_of o)) /\
  ig_mesh_to g o 0 0 0 RIGHT 0 0 = Ok g' /\ / 10 ^ 12 <= norm (vsub (base_of o) (base_of g')).
Proof.
  pose proof PI_RGT_0. set (b := asin (4 / 5)). set (a := asin (2 / 5)).
  assert (SB : sin b = 4 / 5) by (apply sin_asin; lra).
  assert (SA : sin a = 2 / 5) by (apply sin_asin; lra).
  assert (BB : - (PI / 2) < b < PI / 2) by (apply asin_bound_lt; lra).
  assert (BA : - (PI / 2) < a < PI / 2) by (apply asin_bound_lt; lra).
  assert (A0 : 0 < a).
  { destruct (Rle_dec a 0); [|lra]. assert (0 <= - sin a); [|lra]. rewrite <- sin_neg. apply sin_ge_0; lra. }
  assert (AB : a < b) by (apply sin_increasing_0; lra).
  destruct (ex_bevel_ok 12 a false ltac:(lia) ltac:(lra)) as (C1 & P1 & I1 & _ & _).
  destruct (ex_bevel_ok 24 b true ltac:(lia) ltac:(lra)) as (C2 & P2 & I2 & TA & _).
  set (g := ig_new _) in C1, P1, I1. set (o := ig_new _) in C2, P2, I2, TA.
  assert (MA : matched g o a b) by (unfold matched; rewrite P1, P2, SA, SB; field).
  destruct (mesh_to_bevel_ok g o 0 0 0 RIGHT 0 0 _ _ _ _ C1 C2 TA) as (g' & HM).
  pose proof (bevel_distance _ _ _ _ _ _ _ _ _ _ _ _ _ C1 C2 TA HM MA) as D. cbn zeta in D.
  rewrite I1, I2, P2, SB in D. unfold shaft_angle in D. cbn [orb] in D.
  rewrite sin_minus, SA, SB in D.
  assert (CB : cos b = 3 / 5).
  { pose proof (cos_gt_0 b ltac:(lra) ltac:(lra)). pose proof (sc1 b). rewrite SB in *. nra. }
  assert (CA : 9 / 10 <= cos a).
  { pose proof (cos_gt_0 a ltac:(lra) ltac:(lra)). pose proof (sc1 a). rewrite SA in *. nra. }
  rewrite CB in D. assert (T12 : / 10 ^ 12 < 1) by lra.
  exists g, o, g', a, b. repeat (split; [assumption || lra|]). nra.
Qed.
