(** Properties C78, C79: crowned gears in mesh; what recalculating a gear throws away. *)
From Coq Require Import Reals Lra Psatz Lia ZArith List Bool.
From Verif Require Import Num Vec Transform TransformProps Params ParamsProps Coords GearMath GearLem Tooth Wrapper
  MeshLem MeshConj MeshProps MeshDistProps MeshAngleProps MeshContactProps BevelProps Info InfoProps HelicalProps.
Import ListNotations.
Open Scope R_scope.

(** ** C78 *)
(** Placement and tooth base angle of the section at [z]. *)
Definition section_trf (g : igear) (z : R) : gtransform := g_mul (k_trf (ig_core g)) (k_slice (ig_core g) z).
Definition section_angle_base (g : igear) (z s2 : R) : R :=
  base_angle (k_rp (ig_core g)) (k_alpha (ig_core g)) (ig_pia g z) s2.

Lemma section_base_relief g z s2 :
  - section_angle_base g z s2 = - ig_angle_base g s2 + (relief g 0 - relief g z).
Proof. unfold section_angle_base, ig_angle_base, base_angle, relief. ring. Qed.

Lemma calc_mesh_angle_shift Ta Tb T2 T2' p1 p2 ring1 ring2 v :
  g_center Ta = vadd (g_center Tb) v -> g_center T2 = vadd (g_center T2') v ->
  g_orient Ta = g_orient Tb -> g_orient T2 = g_orient T2' -> g_angle T2 = g_angle T2' ->
  calc_mesh_angle Ta T2 p1 p2 ring1 ring2 = calc_mesh_angle Tb T2' p1 p2 ring1 ring2.
Proof.
  intros C C2 O O2 A. unfold calc_mesh_angle.
  assert (D : center_diff_dir Ta T2 = center_diff_dir Tb T2').
  { unfold center_diff_dir, g_x_axis. rewrite O2, C, C2.
    replace (vsub (vadd (g_center T2') v) (vadd (g_center Tb) v)) with (vsub (g_center T2') (g_center Tb)); [reflexivity|].
    generalize (g_center T2') (g_center Tb). clear. revert v. vec_ring. }
  unfold contact1, contact2. rewrite D, O, O2, A. reflexivity.
Qed.

Lemma spur_section g n z : cylindrical g n -> ip_helix (ig_in g) = 0 ->
  let T := k_trf (ig_core g) in let S := section_trf g z in
  g_center S = vadd (g_center T) (smul (ip_module (ig_in g) * z) (g_z_axis T)) /\
  g_orient S = g_orient T /\ g_scale S = g_scale T /\ g_angle S = g_angle T.
Proof.
  intros H B. cbn zeta. set (T := k_trf (ig_core g)).
  assert (N : 0 < IZR n) by (apply IZR_lt, (cy_n _ _ H)).
  unfold section_trf. fold T. cbn [g_mul k_slice g_center g_orient g_scale g_angle].
  assert (SC : g_scale T = ip_module (ig_in g)) by apply (cy_scale _ _ H).
  rewrite (cy_core _ _ H). cbn [with_trf calc_params k_gamma k_spiral k_tooth].
  rewrite (cy_cone _ _ H), (cy_teeth _ _ H), B, tp_make_pos, tan_0 by exact N. cbn [num_teeth].
  replace (0 / 2) with 0 by field. rewrite cos_0, sin_0, mmul_I_r, SC, mapp_mmul, !mapp_smul, rotz_OUT, !smul_smul.
  unfold g_z_axis. rewrite col3_mapp. repeat split; try (f_equal; f_equal; ring); field; lra.
Qed.

(** Two spur gears meshed by mesh_to, cut at one height: the flanks of those sections are
    conjugate, with the gap per flank [backlash / 2] minus the base-circle arcs by which the
    sections are thicker than the sections at [z = 0]. *)
Theorem C78_section_gap g o sg so a target bl g' n1 n2 z1 z2 :
  cylindrical g n1 -> cylindrical o n2 -> ip_helix (ig_in g) = 0 -> ip_helix (ig_in o) = 0 ->
  ip_inside (ig_in g) = false -> ip_inside (ig_in o) = false ->
  ip_module (ig_in g) * cos (ip_alpha (ig_in g)) = ip_module (ig_in o) * cos (ip_alpha (ig_in o)) ->
  / 10 ^ 12 <= ig_r_base g + ig_r_base o ->
  dot target (g_z_axis (k_trf (ig_core o))) = 0 ->
  - PI / 2 < a < PI / 2 -> ig_mesh_equation g o sg so bl a = 0 ->
  ig_mesh_to g o sg so a target bl 0 = Ok g' ->
  ip_module (ig_in g) * z1 = ip_module (ig_in o) * z2 ->
  let gap := bl / 2 - (ig_r_base g * (relief g 0 - relief g z1) + ig_r_base o * (relief o 0 - relief o z2)) in
  conjugate_external (section_trf g' z1) (section_trf o z2) n1 n2 (unit_base g) (unit_base o)
    (- section_angle_base g z1 sg) (- section_angle_base o z2 so) gap gap
    ((ig_r_base g + ig_r_base o) * tan a).
Proof.
  intros H1 H2 B1 B2 I1 I2 PB RR TZ Ha EQ MT ZZ gap.
  destruct (mesh_to_planar _ _ _ _ _ _ _ _ _ _ _ H1 H2 MT) as (Hn & IN & H1' & OR & CE & AN).
  cbn zeta in *. rewrite I1, I2 in CE, AN. cbn [orb] in CE.
  destruct (target_dir_eq _ _ (cy_orient _ _ H2) Hn TZ) as (psi & EP).
  pose proof (r_base_eq _ _ H1) as R1. pose proof (r_base_eq _ _ H2) as R2.
  pose proof (unit_base_pos _ _ H1) as U1. pose proof (unit_base_pos _ _ H2) as U2.
  pose proof (cy_module _ _ H1) as M1. pose proof (cy_module _ _ H2) as M2.
  destruct (spur_section g' n1 z1 H1') as (SC1 & SO1 & SS1 & SA1); [rewrite IN; exact B1|].
  destruct (spur_section o n2 z2 H2 B2) as (SC2 & SO2 & SS2 & SA2). cbn zeta in *. rewrite IN in SC1.
  assert (S1 : g_scale (section_trf g' z1) * unit_base g = ig_r_base g).
  { rewrite SS1, (cy_scale _ _ H1'), IN, R1. reflexivity. }
  assert (S2 : g_scale (section_trf o z2) * unit_base o = ig_r_base o).
  { rewrite SS2, (cy_scale _ _ H2), R2. reflexivity. }
  assert (Q1 : 0 < ig_r_base g) by (rewrite R1; apply Rmult_lt_0_compat; assumption).
  assert (Q2 : 0 < ig_r_base o) by (rewrite R2; apply Rmult_lt_0_compat; assumption).
  assert (N1 : 0 < IZR n1) by (apply IZR_lt; apply (cy_n _ _ H1)).
  assert (N2 : 0 < IZR n2) by (apply IZR_lt; apply (cy_n _ _ H2)).
  replace gap with (2 * gap / 2 * (1 + 0)) at 1 by field. replace gap with (2 * gap / 2 * (1 - 0)) at 2 by field.
  rewrite <- S1, <- S2 at 1.
  assert (SH : g_center (section_trf g' z1) = vadd (g_center (section_trf o z2)) (smul ((ig_r_base g + ig_r_base o) / cos a) (dir (g_orient (k_trf (ig_core o))) psi))).
  { rewrite SC1, SC2, CE, EP, ZZ. unfold g_z_axis. rewrite OR. unfold mesh_dist.
    generalize (g_center (k_trf (ig_core o))) (smul ((ig_r_base g + ig_r_base o) / cos a) (dir (g_orient (k_trf (ig_core o))) psi))
      (smul (ip_module (ig_in o) * z2) (col3 (g_orient (k_trf (ig_core o))))). clear. vec_ring. }
  apply (ext_conjugate (g_orient (k_trf (ig_core o))) (g_center (section_trf o z2)) psi a);
    rewrite ?S1, ?S2; try assumption; try reflexivity.
  - apply (cy_orient _ _ H2).
  - rewrite SO1. exact OR.
  - apply (cy_n _ _ H1).
  - apply (cy_n _ _ H2).
  - apply base_pitch_eq; assumption.
  - unfold ig_mesh_equation in EQ. rewrite (k_tooth_eq _ _ H1), (k_tooth_eq _ _ H2), I1, I2 in EQ.
    unfold k_pitch_angle, tp_pitch_angle in EQ. rewrite (k_tooth_eq _ _ H2) in EQ. cbn [inside_teeth num_teeth orb] in EQ.
    unfold mesh_eq in EQ. unfold inv. rewrite !section_base_relief. unfold gap.
    set (rb1 := ig_r_base g) in *. set (rb2 := ig_r_base o) in *.
    set (A1 := - ig_angle_base g sg) in *. set (A2 := - ig_angle_base o so) in *.
    set (p2 := 2 * PI / IZR n2) in *. set (d1 := relief g 0 - relief g z1). set (d2 := relief o 0 - relief o z2).
    assert (X : (tan a - a) = (rb1 * A1 - rb2 * (p2 / 2 - A2) + bl / 2) / (rb1 + rb2)) by lra.
    rewrite X. field. lra.
  - intros Ta C O. rewrite SA1, AN. 
    rewrite (calc_mesh_angle_shift Ta (k_trf (ig_core g')) (section_trf o z2) (k_trf (ig_core o)) _ _ _ _
      (smul (ip_module (ig_in o) * z2) (g_z_axis (k_trf (ig_core o))))).
    + field. lra.
    + rewrite C, SC1, ZZ. unfold g_z_axis. rewrite OR. reflexivity.
    + exact SC2.
    + rewrite O. symmetry. exact OR.
    + exact SO2.
    + exact SA2.
Qed.

Lemma cyl_standing g n : cylindrical g n -> 0 < ip_height (ig_in g) -> standing g.
Proof.
  intros H Hh. split; [apply H| |apply H|exact Hh]. rewrite (cy_teeth _ _ H). apply IZR_lt, H.
Qed.

(** Crowned gears of equal size placed without backlash overlap at the sections of full tooth
    thickness, by the whole crowning. *)
Theorem C78_crowned_overlap_refuted g o sg so a target g' n1 n2 z :
  cylindrical g n1 -> cylindrical o n2 -> ip_helix (ig_in g) = 0 -> ip_helix (ig_in o) = 0 ->
  ip_inside (ig_in g) = false -> ip_inside (ig_in o) = false ->
  ip_module (ig_in g) = ip_module (ig_in o) -> ip_alpha (ig_in g) = ip_alpha (ig_in o) ->
  / 10 ^ 12 <= ig_r_base g + ig_r_base o ->
  dot target (g_z_axis (k_trf (ig_core o))) = 0 ->
  - PI / 2 < a < PI / 2 -> ig_mesh_equation g o sg so 0 a = 0 ->
  ig_mesh_to g o sg so a target 0 0 = Ok g' ->
  0 < ip_height (ig_in g) -> ip_height (ig_in g) = ip_height (ig_in o) ->
  0 < ip_crown (ig_in g) -> 0 <= ip_crown (ig_in o) ->
  z = ip_height (ig_in g) / 2 ->
  exists gap, gap < 0 /\
    gap = - (ip_module (ig_in g) * cos (ip_alpha (ig_in g)) * (ip_crown (ig_in g) + ip_crown (ig_in o)) / 1000) /\
    conjugate_external (section_trf g' z) (section_trf o z) n1 n2 (unit_base g) (unit_base o)
      (- section_angle_base g z sg) (- section_angle_base o z so) gap gap
      ((ig_r_base g + ig_r_base o) * tan a).
Proof.
  intros H1 H2 B1 B2 I1 I2 EM EA RR TZ Ha EQ MT Hh EH C1 C2 Ez.
  assert (PB : ip_module (ig_in g) * cos (ip_alpha (ig_in g)) = ip_module (ig_in o) * cos (ip_alpha (ig_in o))) by (rewrite EM, EA; reflexivity).
  assert (ZZ : ip_module (ig_in g) * z = ip_module (ig_in o) * z) by (rewrite EM; reflexivity).
  pose proof (C78_section_gap _ _ _ _ _ _ _ _ _ _ z z H1 H2 B1 B2 I1 I2 PB RR TZ Ha EQ MT ZZ) as CG. cbn zeta in CG.
  pose proof (cyl_standing _ _ H1 Hh) as D1.
  assert (D2 : standing o) by (apply (cyl_standing _ n2); [exact H2|lra]).
  pose proof (cy_module _ _ H1) as M1. destruct (cy_alpha _ _ H1) as (A0 & A1).
  assert (CA : 0 < cos (ip_alpha (ig_in g))) by (apply cos_gt_0; lra).
  assert (N1 : 0 < IZR n1) by (apply IZR_lt, (cy_n _ _ H1)). assert (N2 : 0 < IZR n2) by (apply IZR_lt, (cy_n _ _ H2)).
  match type of CG with conjugate_external _ _ _ _ _ _ _ _ ?gp _ _ =>
    assert (G : gp = - (ip_module (ig_in g) * cos (ip_alpha (ig_in g)) * (ip_crown (ig_in g) + ip_crown (ig_in o)) / 1000)) end.
  { rewrite !relief_eq by assumption. rewrite (r_base_eq _ _ H1), (r_base_eq _ _ H2). unfold unit_base.
    rewrite Ez, <- EH, <- EM, <- EA, (cy_teeth _ _ H1), (cy_teeth _ _ H2). field. lra. }
  rewrite G in CG. eexists. split; [|split; [reflexivity|exact CG]].
  assert (0 < ip_module (ig_in g) * cos (ip_alpha (ig_in g)) * (ip_crown (ig_in g) + ip_crown (ig_in o)) / 1000).
  { apply Rdiv_lt_0_compat; [|lra]. apply Rmult_lt_0_compat; [apply Rmult_lt_0_compat; assumption|lra]. }
  lra.
Qed.

(** A crowned pair, module 1, meshed by exact solver values. *)
Definition ex_crown (z c : R) : iparam := mkIP z 5 0 0 ORIGIN 0 1 false 0 0 0 0 1 1.2 (PI / 9) 0 c false 0.
Example C78_example : exists sg so a g', let g := ig_new (ex_crown 20 100) in let o := ig_new (ex_crown 40 100) in
  cylindrical g 20 /\ cylindrical o 40 /\ tooth_solved g sg /\ tooth_solved o so /\
  - PI / 2 < a < PI / 2 /\ ig_mesh_equation g o sg so 0 a = 0 /\ ig_mesh_to g o sg so a RIGHT 0 0 = Ok g' /\
  / 10 ^ 12 <= ig_r_base g + ig_r_base o /\ dot RIGHT (g_z_axis (k_trf (ig_core o))) = 0.
Proof.
  pose proof PI_RGT_0 as Pi.
  set (g := ig_new (ex_crown 20 100)). set (o := ig_new (ex_crown 40 100)).
  assert (H1 : cylindrical g 20) by (apply (ig_new_cylindrical (ex_crown 20 100) 20); cbn; try lra; try lia; try reflexivity).
  assert (H2 : cylindrical o 40) by (apply (ig_new_cylindrical (ex_crown 40 100) 40); cbn; try lra; try lia; try reflexivity).
  assert (E1 : ig_in g = ex_crown 20 100).
  { unfold g, ig_new, ip_normalise. cbn. destruct (Rlt_dec 20 0); [lra|reflexivity]. }
  assert (E2 : ig_in o = ex_crown 40 100).
  { unfold o, ig_new, ip_normalise. cbn. destruct (Rlt_dec 40 0); [lra|reflexivity]. }
  destruct (C42_solver_value_exists 10 (PI / 9)) as (sg & SG); [lra|lra|].
  destruct (C42_solver_value_exists 20 (PI / 9)) as (so & SO); [lra|lra|].
  assert (TG : tooth_solved g sg) by (unfold tooth_solved; rewrite E1; cbn [ex_crown ip_teeth ip_alpha]; replace (20 / 2) with 10 by field; exact SG).
  assert (TO : tooth_solved o so) by (unfold tooth_solved; rewrite E2; cbn [ex_crown ip_teeth ip_alpha]; replace (40 / 2) with 20 by field; exact SO).
  assert (R1 : ig_r_base g = 10 * cos (PI / 9)).
  { rewrite (r_base_eq _ _ H1), E1. unfold unit_base. rewrite E1. cbn [ex_crown ip_module ip_teeth ip_alpha]. field. }
  assert (R2 : ig_r_base o = 20 * cos (PI / 9)).
  { rewrite (r_base_eq _ _ H2), E2. unfold unit_base. rewrite E2. cbn [ex_crown ip_module ip_teeth ip_alpha]. field. }
  pose proof cos_20deg as C20.
  destruct (inv_surj ((ig_r_base g * - ig_angle_base g sg - ig_r_base o * (k_pitch_angle (ig_core o) / 2 - - ig_angle_base o so) + 0 / 2) / (ig_r_base g + ig_r_base o))) as (a & Ba & Ea).
  assert (ME : ig_mesh_equation g o sg so 0 a = 0).
  { unfold ig_mesh_equation. rewrite (k_tooth_eq _ _ H1), (k_tooth_eq _ _ H2), E1, E2. cbn [inside_teeth ex_crown ip_inside orb].
    unfold mesh_eq. rewrite <- Ea. unfold inv. ring. }
  destruct (ig_mesh_to g o sg so a RIGHT 0 0) as [g'|e] eqn:MT.
  - exists sg, so, a, g'. cbn zeta. fold g. fold o. repeat (split; [assumption|]). split; [|].
    + rewrite R1, R2. apply Rle_trans with 1; [|lra]. rewrite <- Rinv_1. apply Rinv_le_contravar; [lra|]. apply pow_R1_Rle. lra.
    + replace (g_z_axis (k_trf (ig_core o))) with OUT; [vec_simpl; ring|].
      unfold o, ig_new, ip_normalise. cbn [ex_crown ip_teeth]. destruct (Rlt_dec 40 0); [lra|]. reflexivity.
  - exfalso. revert MT. unfold ig_mesh_to, normalize_r.
    replace (norm RIGHT) with 1 by (symmetry; apply norm_RIGHT). destruct (Req_EM_T 1 0); [lra|]. cbn [bind].
    replace (k_cone (ig_core g)) with 0 by (rewrite (cy_core _ _ H1); cbn [with_trf calc_params k_cone]; rewrite E1; reflexivity).
    replace (k_cone (ig_core o)) with 0 by (rewrite (cy_core _ _ H2); cbn [with_trf calc_params k_cone]; rewrite E2; reflexivity).
    destruct (Req_EM_T 0 0); [discriminate|lra].
Qed.

(** ** C79 *)
(** calc_params (490-592) on an existing HelicalGear or SpurRingGear. *)
Definition helical_recalc (h : hgear) : hgear :=
  let k := calc_params (ig_in (h_gear h)) in
  mkH (mkIG (ig_in (h_gear h)) k) (fun z => z * k_spiral k).
Definition ig_recalc (g : igear) : igear := mkIG (ig_in g) (calc_params (ig_in g)).

(** A recalculated SpurRingGear has the outside limit -2 whatever was asked for. *)
Theorem C79_ring_rim p orc : 0 < ip_teeth p ->
  k_ho (ig_core (ig_recalc (spur_ring_new p orc))) = -2 /\
  (ig_recalc (spur_ring_new p orc) = spur_ring_new p orc <-> orc = 2).
Proof.
  intros Hn. unfold spur_ring_new, ip_normalise. cbn [ip_teeth]. destruct (Rlt_dec (ip_teeth p) 0); [lra|].
  unfold ig_recalc. cbn [ig_in ig_core]. split; [reflexivity|]. split.
  - intros E. apply (f_equal (fun g => k_ho (ig_core g))) in E. cbn in E. lra.
  - intros ->. unfold with_ho, calc_params. cbn. replace (-2) with (- (2)) by ring. reflexivity.
Qed.

(** A recalculated herringbone gear turns on the same way over its whole height: above mid
    height every section differs from the herringbone gear's. *)
Theorem C79_herringbone_lost_refuted p : 0 < ip_teeth p -> 0 < ip_module p -> 0 < ip_height p ->
  0 < cos (ip_helix p) -> ip_helix p <> 0 -> - PI / 2 < ip_helix p < PI / 2 ->
  let h := helical_new p true in
  let mid := (k_z_first (ig_core (h_gear h)) + k_z_last (ig_core (h_gear h))) / 2 in
  forall z, h_angle (helical_recalc h) z = h_angle h z <-> z <= mid.
Proof.
  intros Hn Hm Hh Cb Nb Bb h mid z.
  destruct (C70_herringbone_symmetric p Hn Hm Hh Cb) as (S & L). fold h in S, L. fold mid in S, L.
  set (w := tan (ip_helix p) / (ip_teeth p / 2)).
  assert (P : forall y, h_angle (helical_new p false) y = y * w).
  { intros y. unfold helical_new, ig_new. rewrite helical_normalise by exact Hn. reflexivity. }
  assert (Q : h_angle (helical_recalc h) z = z * w).
  { unfold helical_recalc. cbn [h_angle]. unfold h. rewrite helical_in, helical_normalise by exact Hn. reflexivity. }
  assert (Nw : w <> 0).
  { unfold w. intros E. apply Nb. apply tan_zero; [exact Bb|].
    apply (f_equal (fun x => x * (ip_teeth p / 2))) in E. field_simplify in E; lra. }
  rewrite Q. split.
  - intros E. destruct (Rle_lt_dec z mid) as [|G]; [assumption|exfalso].
    specialize (S (z - mid)). replace (mid + (z - mid)) with z in S by ring.
    rewrite S, L, P in E by lra. apply Nw. nra.
  - intros G. rewrite L, P by exact G. reflexivity.
Qed.

Example C79_example :
  k_ho (ig_core (spur_ring_new (ex_param 40 true) 2.5)) = - 2.5 /\
  k_ho (ig_core (ig_recalc (spur_ring_new (ex_param 40 true) 2.5))) = -2.
Proof.
  split; [|apply C79_ring_rim; cbn; lra].
  unfold spur_ring_new, ip_normalise. cbn [ip_teeth ex_param]. destruct (Rlt_dec 40 0); [lra|]. cbn. lra.
Qed.
