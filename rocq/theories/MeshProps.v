(** Properties C42, C43, C45, C49: centre distance and placement of involute gears on cylinders. *)
From Coq Require Import Nsatz Reals Lra Psatz Lia ZArith List Bool.
From Verif Require Import Num Vec Transform TransformProps Params ParamsProps Coords CoordsProps Gen GenProps
  Interp Curve CurveLem CurveProps ArcLem ArcProps Chain GearMath Tooth Wrapper GearLem MeshAngleProps MeshLem MeshConj.
Import ListNotations.
Open Scope R_scope.

(** A cylindrical involute gear with [n] teeth, placed anywhere. *)
Record cylindrical (g : igear) (n : Z) : Prop := {
  cy_core : ig_core g = with_trf (calc_params (ig_in g)) (k_trf (ig_core g));
  cy_teeth : ip_teeth (ig_in g) = IZR n;
  cy_n : (0 < n)%Z;
  cy_module : 0 < ip_module (ig_in g);
  cy_cone : ip_cone (ig_in g) = 0;
  cy_alpha : 0 <= ip_alpha (ig_in g) < PI / 2;
  cy_orient : orthogonal (g_orient (k_trf (ig_core g)));
  cy_scale : g_scale (k_trf (ig_core g)) = ip_module (ig_in g) }.

(** Constructed gears are of that kind. *)
Lemma ig_new_cylindrical p n : ip_teeth p = IZR n -> (n <> 0)%Z -> 0 < ip_module p -> ip_cone p = 0 ->
  0 <= ip_alpha p < PI / 2 -> cylindrical (ig_new p) (Z.abs n).
Proof.
  intros Ht Hn Hm Hc Ha. unfold ig_new, ip_normalise. rewrite Ht.
  destruct (Rlt_dec (IZR n) 0) as [L|L].
  - apply (lt_IZR n 0) in L. rewrite Z.abs_neq by lia.
    constructor; cbn [ig_in ig_core ip_teeth ip_module ip_cone ip_alpha]; try assumption; try reflexivity.
    + rewrite opp_IZR. reflexivity.
    + lia.
    + apply rotation_I.
  - assert (0 <= n)%Z by (apply le_IZR; lra). rewrite Z.abs_eq by lia.
    constructor; cbn [ig_in ig_core ip_teeth ip_module ip_cone ip_alpha]; try assumption; try reflexivity.
    + lia.
    + apply rotation_I.
Qed.

(** Base radius in the gear's own units and in space. *)
Definition unit_base (g : igear) : R := ip_teeth (ig_in g) / 2 * cos (ip_alpha (ig_in g)).

Lemma r_base_eq g n : cylindrical g n -> ig_r_base g = ip_module (ig_in g) * unit_base g.
Proof.
  intros [E Ht Hn Hm Hc [Ha0 Ha] HO HS]. unfold ig_r_base, ig_base_circle_radius.
  set (T := k_trf (ig_core g)) in *. rewrite E.
  set (z := k_p2z _ _). clearbody z.
  cbn [k_trf with_trf k_rp k_alpha calc_params].
  set (Q := g_mul T _).
  rewrite C07_gear_transform_scales_distances.
  2: { unfold Q, g_mul. cbn [g_orient k_slice with_trf calc_params]. replace (mmul (g_orient T) UNIT3X3) with (g_orient T) by (destruct (g_orient T); vec_ring). exact HO. }
  assert (S : g_scale Q = ip_module (ig_in g)).
  { unfold Q, g_mul, k_slice. cbn [g_scale k_gamma with_trf calc_params]. rewrite Hc, HS.
    replace (0 / 2) with 0 by field. rewrite sin_0. unfold Rdiv. ring. }
  rewrite S.
  assert (0 < cos (ip_alpha (ig_in g))) by (apply cos_gt_0; lra).
  assert (0 < IZR n) by (apply IZR_lt; lia).
  unfold base_radius_of, unit_base. rewrite Ht in *.
  set (rr := IZR n / 2 * cos _) in *.
  assert (0 < rr) by (unfold rr; nra).
  replace (vsub (smul rr RIGHT) ORIGIN) with (smul rr RIGHT) by vec_ring.
  rewrite norm_smul, !Rabs_right by lra. rewrite norm_unit by (vec_simpl; ring). ring.
Qed.

Lemma unit_base_pos g n : cylindrical g n -> 0 < unit_base g.
Proof.
  intros [E Ht Hn Hm Hc [Ha0 Ha] HO HS].
  assert (0 < cos (ip_alpha (ig_in g))) by (apply cos_gt_0; lra).
  assert (0 < IZR n) by (apply IZR_lt; lia).
  unfold unit_base. rewrite Ht. apply Rmult_lt_0_compat; lra.
Qed.

Lemma calc_mesh_angle_ext Ta Tb T2 p1 p2 ring1 ring2 :
  g_center Ta = g_center Tb -> g_orient Ta = g_orient Tb ->
  calc_mesh_angle Ta T2 p1 p2 ring1 ring2 = calc_mesh_angle Tb T2 p1 p2 ring1 ring2.
Proof.
  intros C O. unfold calc_mesh_angle, contact1, contact2, center_diff_dir. rewrite C, O. reflexivity.
Qed.

Lemma tp_make_pos n c b : 0 < n -> tp_make n c b = mkTP n c b.
Proof. intros. unfold tp_make. destruct (Rlt_dec n 0); [lra|reflexivity]. Qed.

(** What mesh_to leaves behind, for two cylindrical gears. *)
Lemma mesh_to_planar g o sg so a target bl bias g' n1 n2 :
  cylindrical g n1 -> cylindrical o n2 ->
  ig_mesh_to g o sg so a target bl bias = Ok g' ->
  norm target <> 0 /\
  let T := k_trf (ig_core g') in let To := k_trf (ig_core o) in
  let ring1 := ip_inside (ig_in g) in let ring2 := ip_inside (ig_in o) in
  ig_in g' = ig_in g /\ cylindrical g' n1 /\
  g_orient T = g_orient To /\
  g_center T = vadd (g_center To)
    (smul (mesh_dist (ig_r_base g) (ig_r_base o) (orb ring1 ring2) a) (normalize target)) /\
  g_angle T = calc_mesh_angle T To (2 * PI / IZR n1) (2 * PI / IZR n2) ring1 ring2
              + bias / 2 * bl / ig_r_base g.
Proof.
  intros H1 H2. pose proof H1 as [E Ht Hn Hm Hc [Ha0 Ha] HO HS].
  pose proof H2 as [E' Ht' Hn' Hm' Hc' [Ha0' Ha'] HO' HS'].
  assert (N1 : 0 < IZR n1) by (apply IZR_lt; lia). assert (N2 : 0 < IZR n2) by (apply IZR_lt; lia).
  unfold ig_mesh_to, normalize_r. destruct (Req_EM_T (norm target) 0) as [Z|Z]; [discriminate|].
  cbn [bind].
  assert (K1 : k_cone (ig_core g) = 0) by (rewrite E; exact Hc).
  assert (K2 : k_cone (ig_core o) = 0) by (rewrite E'; exact Hc').
  assert (I1 : k_tooth (ig_core g) = mkTP (IZR n1) 0 (ip_inside (ig_in g))).
  { rewrite E. cbn [with_trf k_tooth calc_params]. rewrite Ht. apply tp_make_pos. exact N1. }
  assert (I2 : k_tooth (ig_core o) = mkTP (IZR n2) 0 (ip_inside (ig_in o))).
  { rewrite E'. cbn [with_trf k_tooth calc_params]. rewrite Ht'. apply tp_make_pos. exact N2. }
  rewrite K1, K2. destruct (Req_EM_T 0 0) as [_|B]; [|exfalso; apply B; reflexivity].
  unfold k_pitch_angle, tp_pitch_angle. rewrite I1, I2. cbn [inside_teeth num_teeth].
  intros Q. injection Q as Q. split; [exact Z|]. subst g'. cbn zeta.
  cbn [ig_place ig_in ig_core with_trf k_trf g_orient g_center g_angle].
  split; [reflexivity|]. split.
  { constructor; cbn [ig_place ig_in ig_core with_trf k_trf g_orient g_scale]; try assumption.
    - rewrite E at 1. reflexivity.
    - split; assumption. }
  split; [reflexivity|]. split.
  { set (d := mesh_dist _ _ _ _). set (u := normalize target). destruct (g_center _), u. vec_ring. }
  f_equal. 
Qed.

(** ** C45 *)
Lemma base_pitch_eq g o n1 n2 : cylindrical g n1 -> cylindrical o n2 ->
  ip_module (ig_in g) * cos (ip_alpha (ig_in g)) = ip_module (ig_in o) * cos (ip_alpha (ig_in o)) ->
  ig_r_base g * (2 * PI / IZR n1) = ig_r_base o * (2 * PI / IZR n2).
Proof.
  intros H1 H2 E. rewrite (r_base_eq _ _ H1), (r_base_eq _ _ H2). unfold unit_base.
  rewrite (cy_teeth _ _ H1), (cy_teeth _ _ H2).
  assert (0 < IZR n1) by (apply IZR_lt; apply (cy_n _ _ H1)).
  assert (0 < IZR n2) by (apply IZR_lt; apply (cy_n _ _ H2)).
  replace (ip_module (ig_in g) * (IZR n1 / 2 * cos (ip_alpha (ig_in g))) * (2 * PI / IZR n1))
    with (ip_module (ig_in g) * cos (ip_alpha (ig_in g)) * PI) by (field; lra).
  replace (ip_module (ig_in o) * (IZR n2 / 2 * cos (ip_alpha (ig_in o))) * (2 * PI / IZR n2))
    with (ip_module (ig_in o) * cos (ip_alpha (ig_in o)) * PI) by (field; lra).
  rewrite E. reflexivity.
Qed.

Lemma target_dir_eq O target : orthogonal O -> norm target <> 0 -> dot target (col3 O) = 0 ->
  exists psi, normalize target = dir O psi.
Proof.
  intros HO Hn Hz. pose proof (norm_nonneg target).
  rewrite (dir_of_plane O target HO Hz). eexists. apply normalize_smul; [lra|].
  apply norm_dir, HO.
Qed.

(** External gears: after mesh_to with an exact root, the flanks are conjugate; the clearances of
    the two flank pairs are bl/2 (1 + bias) and bl/2 (1 - bias). *)
Theorem C45_external g o sg so a target bl bias g' n1 n2 :
  cylindrical g n1 -> cylindrical o n2 ->
  ip_inside (ig_in g) = false -> ip_inside (ig_in o) = false ->
  ip_module (ig_in g) * cos (ip_alpha (ig_in g)) = ip_module (ig_in o) * cos (ip_alpha (ig_in o)) ->
  / 10 ^ 12 <= ig_r_base g + ig_r_base o ->
  dot target (g_z_axis (k_trf (ig_core o))) = 0 ->
  - PI / 2 < a < PI / 2 -> ig_mesh_equation g o sg so bl a = 0 ->
  ig_mesh_to g o sg so a target bl bias = Ok g' ->
  conjugate_external (k_trf (ig_core g')) (k_trf (ig_core o)) n1 n2 (unit_base g) (unit_base o)
    (- ig_angle_base g sg) (- ig_angle_base o so) (bl / 2 * (1 + bias)) (bl / 2 * (1 - bias))
    ((ig_r_base g + ig_r_base o) * tan a).
Proof.
  intros H1 H2 I1 I2 PB RR TZ Ha EQ MT.
  destruct (mesh_to_planar _ _ _ _ _ _ _ _ _ _ _ H1 H2 MT) as (Hn & IN & H1' & OR & CE & AN).
  cbn zeta in *. rewrite I1, I2 in CE, AN. cbn [orb] in CE.
  destruct (target_dir_eq _ _ (cy_orient _ _ H2) Hn TZ) as (psi & EP).
  pose proof (r_base_eq _ _ H1) as R1. pose proof (r_base_eq _ _ H2) as R2.
  pose proof (unit_base_pos _ _ H1) as U1. pose proof (unit_base_pos _ _ H2) as U2.
  pose proof (cy_module _ _ H1) as M1. pose proof (cy_module _ _ H2) as M2.
  assert (S1 : g_scale (k_trf (ig_core g')) * unit_base g = ig_r_base g).
  { rewrite (cy_scale _ _ H1'), IN, R1. reflexivity. }
  assert (S2 : g_scale (k_trf (ig_core o)) * unit_base o = ig_r_base o).
  { rewrite (cy_scale _ _ H2), R2. reflexivity. }
  assert (Q1 : 0 < ig_r_base g) by (rewrite R1; apply Rmult_lt_0_compat; assumption).
  assert (Q2 : 0 < ig_r_base o) by (rewrite R2; apply Rmult_lt_0_compat; assumption).
  assert (N1 : 0 < IZR n1) by (apply IZR_lt; apply (cy_n _ _ H1)).
  assert (N2 : 0 < IZR n2) by (apply IZR_lt; apply (cy_n _ _ H2)).
  rewrite <- S1, <- S2 at 1.
  apply (ext_conjugate (g_orient (k_trf (ig_core o))) (g_center (k_trf (ig_core o))) psi a);
    rewrite ?S1, ?S2; try assumption; try reflexivity.
  - apply (cy_orient _ _ H2).
  - apply (cy_n _ _ H1).
  - apply (cy_n _ _ H2).
  - apply base_pitch_eq; assumption.
  - unfold ig_mesh_equation in EQ.
    assert (K : k_tooth (ig_core g) = mkTP (IZR n1) 0 false).
    { rewrite (cy_core _ _ H1). cbn [with_trf k_tooth calc_params]. rewrite (cy_teeth _ _ H1), I1. apply tp_make_pos. exact N1. }
    assert (K' : k_tooth (ig_core o) = mkTP (IZR n2) 0 false).
    { rewrite (cy_core _ _ H2). cbn [with_trf k_tooth calc_params]. rewrite (cy_teeth _ _ H2), I2. apply tp_make_pos. exact N2. }
    unfold k_pitch_angle, tp_pitch_angle in EQ. rewrite K, K' in EQ. cbn [inside_teeth num_teeth orb] in EQ.
    unfold mesh_eq in EQ. unfold inv.
    set (rb1 := ig_r_base g) in *. set (rb2 := ig_r_base o) in *.
    set (A1 := - ig_angle_base g sg) in *. set (A2 := - ig_angle_base o so) in *.
    set (p2 := 2 * PI / IZR n2) in *.
    assert (X : (tan a - a) = (rb1 * A1 - rb2 * (p2 / 2 - A2) + bl / 2) / (rb1 + rb2)) by lra.
    rewrite X. field. lra.
  - rewrite CE, EP. reflexivity.
  - intros Ta C O. rewrite AN. f_equal. apply calc_mesh_angle_ext; [symmetry; exact C|].
    rewrite OR. symmetry. exact O.
Qed.

(** Common part of the two ring cases. [d1], [d2] are the arcs used by the mesh equation. *)
Lemma k_tooth_eq g n : cylindrical g n -> k_tooth (ig_core g) = mkTP (IZR n) 0 (ip_inside (ig_in g)).
Proof.
  intros H. rewrite (cy_core _ _ H). cbn [with_trf k_tooth calc_params]. rewrite (cy_teeth _ _ H).
  apply tp_make_pos. apply IZR_lt. apply (cy_n _ _ H).
Qed.

(** A pinion moved into a ring gear. *)
Theorem C45_pinion_into_ring g o sg so a target bl bias g' n1 n2 :
  cylindrical g n1 -> cylindrical o n2 ->
  ip_inside (ig_in g) = false -> ip_inside (ig_in o) = true ->
  ip_module (ig_in g) * cos (ip_alpha (ig_in g)) = ip_module (ig_in o) * cos (ip_alpha (ig_in o)) ->
  / 10 ^ 12 <= ig_r_base o - ig_r_base g ->
  ig_angle_base g sg <= 0 -> ig_angle_base o so <= 0 ->
  ig_r_base g * - ig_angle_base g sg < ig_r_base o * - ig_angle_base o so ->
  dot target (g_z_axis (k_trf (ig_core o))) = 0 ->
  - PI / 2 < a < PI / 2 -> ig_mesh_equation g o sg so bl a = 0 ->
  ig_mesh_to g o sg so a target bl bias = Ok g' ->
  conjugate_ring (k_trf (ig_core g')) (k_trf (ig_core o)) n1 n2 (unit_base g) (unit_base o)
    (- ig_angle_base g sg) (- ig_angle_base o so) (bl / 2 * (1 + bias)) (bl / 2 * (1 - bias))
    ((ig_r_base o - ig_r_base g) * tan (- a)).
Proof.
  intros H1 H2 I1 I2 PB RR B1 B2 DD TZ Ha EQ MT.
  destruct (mesh_to_planar _ _ _ _ _ _ _ _ _ _ _ H1 H2 MT) as (Hn & IN & H1' & OR & CE & AN).
  cbn zeta in *. rewrite I1, I2 in CE, AN. cbn [orb] in CE.
  destruct (target_dir_eq _ _ (cy_orient _ _ H2) Hn TZ) as (psi & EP).
  pose proof (r_base_eq _ _ H1) as R1. pose proof (r_base_eq _ _ H2) as R2.
  pose proof (unit_base_pos _ _ H1) as U1. pose proof (unit_base_pos _ _ H2) as U2.
  pose proof (cy_module _ _ H1) as M1. pose proof (cy_module _ _ H2) as M2.
  assert (S1 : g_scale (k_trf (ig_core g')) * unit_base g = ig_r_base g).
  { rewrite (cy_scale _ _ H1'), IN, R1. reflexivity. }
  assert (S2 : g_scale (k_trf (ig_core o)) * unit_base o = ig_r_base o).
  { rewrite (cy_scale _ _ H2), R2. reflexivity. }
  assert (Q1 : 0 < ig_r_base g) by (rewrite R1; apply Rmult_lt_0_compat; assumption).
  assert (Q2 : 0 < ig_r_base o) by (rewrite R2; apply Rmult_lt_0_compat; assumption).
  assert (N1 : 0 < IZR n1) by (apply IZR_lt; apply (cy_n _ _ H1)).
  assert (N2 : 0 < IZR n2) by (apply IZR_lt; apply (cy_n _ _ H2)).
  pose proof PI_RGT_0 as PP. pose proof (cos_pos_in a Ha) as CA. pose proof (COS_bound a) as CB.
  assert (T12 : 0 < / 10 ^ 12) by (apply Rinv_0_lt_compat; lra).
  pose proof (base_pitch_eq _ _ _ _ H1 H2 PB) as BP.
  unfold mesh_dist in CE. rewrite EP in CE.
  set (rb1 := ig_r_base g) in *. set (rb2 := ig_r_base o) in *.
  assert (HD : / 10 ^ 12 <= (rb2 - rb1) / cos a).
  { apply Rle_trans with (rb2 - rb1); [exact RR|].
    apply Rmult_le_reg_r with (cos a); [exact CA|]. unfold Rdiv. rewrite Rmult_assoc, Rinv_l by lra. nra. }
  destruct (ring_phase _ _ psi _ (k_trf (ig_core g')) (k_trf (ig_core o)) n1 n2 false true
    (cy_orient _ _ H2) OR eq_refl (cy_n _ _ H1) (cy_n _ _ H2) eq_refl CE HD eq_refl) as (m & PH).
  set (ma := calc_mesh_angle _ _ _ _ _ _) in *. clearbody ma.
  set (p1 := 2 * PI / IZR n1) in *. set (p2 := 2 * PI / IZR n2) in *.
  assert (P1 : 0 < p1) by (apply Rdiv_lt_0_compat; lra).
  assert (P2 : 0 < p2) by (apply Rdiv_lt_0_compat; lra).
  replace (bl / 2 * (1 + bias)) with (bl / 2 + bias * bl / 2) by field.
  replace (bl / 2 * (1 - bias)) with (bl / 2 - bias * bl / 2) by field.
  replace (rb2 - rb1) with (g_scale (k_trf (ig_core o)) * unit_base o - g_scale (k_trf (ig_core g')) * unit_base g) by (rewrite S1, S2; reflexivity).
  apply (ring_conjugate (g_orient (k_trf (ig_core o))) psi (- a)) with (m := (- m)%Z);
    rewrite ?S1, ?S2; fold p1 p2; try assumption; try reflexivity.
  - apply (cy_orient _ _ H2).
  - apply (cy_n _ _ H1).
  - apply (cy_n _ _ H2).
  - lra.
  - unfold ig_mesh_equation in EQ. rewrite (k_tooth_eq _ _ H1), (k_tooth_eq _ _ H2) in EQ.
    cbn [inside_teeth] in EQ. rewrite I1, I2 in EQ. cbn [orb] in EQ. unfold mesh_eq in EQ.
    fold rb1 rb2 in EQ. rewrite !Rabs_right in EQ by lra.
    set (A1 := - ig_angle_base g sg) in *. set (A2 := - ig_angle_base o so) in *.
    rewrite (sign_pos (rb2 * A2 - rb1 * A1)) in EQ by lra.
    rewrite inv_neg. unfold inv.
    assert (X : (tan a - a) = - ((rb2 * A2 - rb1 * A1 - bl / 2 * 1) / (rb2 - rb1))) by lra.
    rewrite X. field. lra.
  - rewrite cos_neg. exact CE.
  - rewrite AN, opp_IZR.
    assert (PHM : rb1 * (ma - psi) = rb2 * (g_angle (k_trf (ig_core o)) - psi) + rb1 * p1 * IZR m).
    { assert (X : ma - psi = p1 * ((g_angle (k_trf (ig_core o)) - psi) / p2 + IZR m))
        by (rewrite <- PH; field; lra).
      rewrite X.
      replace (rb1 * (p1 * ((g_angle (k_trf (ig_core o)) - psi) / p2 + IZR m)))
        with (rb1 * p1 * ((g_angle (k_trf (ig_core o)) - psi) / p2) + rb1 * p1 * IZR m) by ring.
      rewrite BP at 1. field. lra. }
    assert (BB : rb1 * (bias / 2 * bl / rb1) = bias * bl / 2) by (field; lra).
    lra.
Qed.

(** A ring gear moved over a pinion. *)
Theorem C45_ring_over_pinion g o sg so a target bl bias g' n1 n2 :
  cylindrical g n1 -> cylindrical o n2 ->
  ip_inside (ig_in g) = true -> ip_inside (ig_in o) = false ->
  ip_module (ig_in g) * cos (ip_alpha (ig_in g)) = ip_module (ig_in o) * cos (ip_alpha (ig_in o)) ->
  / 10 ^ 12 <= ig_r_base g - ig_r_base o ->
  ig_angle_base g sg <= 0 -> ig_angle_base o so <= 0 ->
  ig_r_base o * - ig_angle_base o so < ig_r_base g * - ig_angle_base g sg ->
  dot target (g_z_axis (k_trf (ig_core o))) = 0 ->
  - PI / 2 < a < PI / 2 -> ig_mesh_equation g o sg so bl a = 0 ->
  ig_mesh_to g o sg so a target bl bias = Ok g' ->
  conjugate_ring (k_trf (ig_core o)) (k_trf (ig_core g')) n2 n1 (unit_base o) (unit_base g)
    (- ig_angle_base o so) (- ig_angle_base g sg) (bl / 2 * (1 - bias)) (bl / 2 * (1 + bias))
    ((ig_r_base g - ig_r_base o) * tan (- a)).
Proof.
  intros H1 H2 I1 I2 PB RR B1 B2 DD TZ Ha EQ MT.
  destruct (mesh_to_planar _ _ _ _ _ _ _ _ _ _ _ H1 H2 MT) as (Hn & IN & H1' & OR & CE & AN).
  cbn zeta in *. rewrite I1, I2 in CE, AN. cbn [orb] in CE.
  destruct (target_dir_eq _ _ (cy_orient _ _ H2) Hn TZ) as (psi & EP).
  pose proof (r_base_eq _ _ H1) as R1. pose proof (r_base_eq _ _ H2) as R2.
  pose proof (unit_base_pos _ _ H1) as U1. pose proof (unit_base_pos _ _ H2) as U2.
  pose proof (cy_module _ _ H1) as M1. pose proof (cy_module _ _ H2) as M2.
  assert (S1 : g_scale (k_trf (ig_core g')) * unit_base g = ig_r_base g).
  { rewrite (cy_scale _ _ H1'), IN, R1. reflexivity. }
  assert (S2 : g_scale (k_trf (ig_core o)) * unit_base o = ig_r_base o).
  { rewrite (cy_scale _ _ H2), R2. reflexivity. }
  assert (Q1 : 0 < ig_r_base g) by (rewrite R1; apply Rmult_lt_0_compat; assumption).
  assert (Q2 : 0 < ig_r_base o) by (rewrite R2; apply Rmult_lt_0_compat; assumption).
  assert (N1 : 0 < IZR n1) by (apply IZR_lt; apply (cy_n _ _ H1)).
  assert (N2 : 0 < IZR n2) by (apply IZR_lt; apply (cy_n _ _ H2)).
  pose proof PI_RGT_0 as PP. pose proof (cos_pos_in a Ha) as CA. pose proof (COS_bound a) as CB.
  assert (T12 : 0 < / 10 ^ 12) by (apply Rinv_0_lt_compat; lra).
  pose proof (base_pitch_eq _ _ _ _ H1 H2 PB) as BP.
  unfold mesh_dist in CE. rewrite EP in CE.
  set (rb1 := ig_r_base g) in *. set (rb2 := ig_r_base o) in *.
  assert (HD : / 10 ^ 12 <= (rb1 - rb2) / cos a).
  { apply Rle_trans with (rb1 - rb2); [exact RR|].
    apply Rmult_le_reg_r with (cos a); [exact CA|]. unfold Rdiv. rewrite Rmult_assoc, Rinv_l by lra. nra. }
  replace ((rb2 - rb1) / cos a) with (- ((rb1 - rb2) / cos a)) in CE by (field; lra).
  destruct (ring_phase _ _ psi _ (k_trf (ig_core g')) (k_trf (ig_core o)) n1 n2 true false
    (cy_orient _ _ H2) OR eq_refl (cy_n _ _ H1) (cy_n _ _ H2) eq_refl CE HD eq_refl) as (m & PH).
  set (ma := calc_mesh_angle _ _ _ _ _ _) in *. clearbody ma.
  set (p1 := 2 * PI / IZR n1) in *. set (p2 := 2 * PI / IZR n2) in *.
  assert (P1 : 0 < p1) by (apply Rdiv_lt_0_compat; lra).
  assert (P2 : 0 < p2) by (apply Rdiv_lt_0_compat; lra).
  replace (bl / 2 * (1 + bias)) with (bl / 2 - - (bias * bl / 2)) by field.
  replace (bl / 2 * (1 - bias)) with (bl / 2 + - (bias * bl / 2)) by field.
  replace (rb1 - rb2) with (g_scale (k_trf (ig_core g')) * unit_base g - g_scale (k_trf (ig_core o)) * unit_base o) by (rewrite S1, S2; reflexivity).
  apply (ring_conjugate (g_orient (k_trf (ig_core o))) psi (- a)) with (m := m);
    rewrite ?S1, ?S2; fold p1 p2; try assumption; try reflexivity.
  - apply (cy_orient _ _ H2).
  - apply (cy_n _ _ H2).
  - apply (cy_n _ _ H1).
  - symmetry. exact BP.
  - lra.
  - unfold ig_mesh_equation in EQ. rewrite (k_tooth_eq _ _ H1), (k_tooth_eq _ _ H2) in EQ.
    cbn [inside_teeth] in EQ. rewrite I1, I2 in EQ. cbn [orb] in EQ. unfold mesh_eq in EQ.
    fold rb1 rb2 in EQ. rewrite !Rabs_right in EQ by lra.
    set (A1 := - ig_angle_base g sg) in *. set (A2 := - ig_angle_base o so) in *.
    rewrite (sign_neg (rb2 * A2 - rb1 * A1)) in EQ by lra.
    rewrite inv_neg. unfold inv.
    assert (X : (tan a - a) = - ((rb2 * A2 - rb1 * A1 - bl / 2 * -1) / (rb2 - rb1))) by lra.
    rewrite X. field. lra.
  - rewrite CE, cos_neg. set (d := (rb1 - rb2) / cos a). set (u := dir _ _).
    destruct (g_center (k_trf (ig_core o))), u. vec_ring.
  - rewrite AN.
    assert (PHM : rb1 * (ma - psi) = rb2 * (g_angle (k_trf (ig_core o)) - psi) + rb2 * p2 * IZR m).
    { assert (X : ma - psi = p1 * ((g_angle (k_trf (ig_core o)) - psi) / p2 + IZR m))
        by (rewrite <- PH; field; lra).
      rewrite X.
      replace (rb1 * (p1 * ((g_angle (k_trf (ig_core o)) - psi) / p2 + IZR m)))
        with (rb1 * p1 * ((g_angle (k_trf (ig_core o)) - psi) / p2) + rb1 * p1 * IZR m) by ring.
      rewrite BP. field. lra. }
    assert (BB : rb1 * (bias / 2 * bl / rb1) = bias * bl / 2) by (field; lra).
    lra.
Qed.
