(** C120: undercut relief and tip truncation, both on by default, leave an involute gear with enough teeth as it is. *)
From Coq Require Import Nsatz Reals ZArith Lra Lia List Bool Arith Permutation.
From Verif Require Import Num Vec Coords CoordsProps Transform TransformProps Params Bezier BezierLem BezierProps Interp Curve CurveLem CurveProps
  ArcLem ArcProps Chain ChainLem ChainProps NurbsProps Gen GenProps GearMath GearLem MeshDistProps Tooth Wrapper Info InfoProps HelicalProps RefLines RefLinesProps Profile ProfileLem ProfileProps
  Build BuildProps Convert ConvertProps NurbConvProps Fillet FilletProps FlankProps ReduceProps Teeth RackConjProps UndercutProps RisingLem Report ReportProps MeshProps SpurProps RadiiProps Faces FacesProps Part PartProps.
Import ListNotations.
Open Scope R_scope.

(** ** Specification *)
(** The searches for the point of the flank in the symmetry plane of the tooth report such a point where they succeed. *)
Definition plane_sound (fs : fsolver) (tooth : node) : Prop :=
  forall g x, fs_plane fs tooth UP g = (true, x) -> 0 <= x <= 1 /\ vy (n_point tooth x) = 0.
(** The same parameters without undercut relief and without tip truncation. *)
Definition bare_param (p : iparam) : iparam :=
  mkIP (ip_teeth p) (ip_height p) (ip_helix p) (ip_cone p) (ip_center p) (ip_angle p) (ip_module p) false (ip_root_fillet p) (ip_tip_fillet p) 0
    (ip_shift p) (ip_add p) (ip_ded p) (ip_alpha p) (ip_backlash p) (ip_crown p) (ip_inside p) (ip_zanchor p).
Definition bare (g : igear) : igear := mkIG (bare_param (ig_in g)) (ig_core g).

(** ** The flank up to its end *)
(** Points of the flank, up to the parameter 2 of the involute where the generator's curve ends. *)
Definition on_flank2 (rp alpha pia : R) (p : vec) : Prop :=
  exists r, rp * cos alpha / 2 <= r /\ flank_angle rp alpha pia r < PI /\ p = flank_point rp alpha pia r.

Lemma inv_small t : 0 <= t <= 2 -> inv (atan t) <= 2.
Proof.
  intros T. unfold inv. rewrite tan_atan. assert (0 <= atan t); [|lra].
  destruct T as [[T|<-] _]; [left; rewrite <- atan_0; apply atan_increasing, T|rewrite atan_0; lra].
Qed.

Lemma tooth_within2 ts rp alpha pia : 0 < rp -> 0 < alpha < PI / 2 -> inv alpha <= PI -> 0 <= pia + inv alpha -> solved ts rp alpha -> top_found ts rp alpha pia ->
  let t := plane_involute_tooth ts rp alpha pia in rising_node rad2 t /\ within (on_flank2 rp alpha pia) t.
Proof.
  intros P A I PS S T. cbv zeta. destruct (tooth_rising ts rp alpha pia P A I S T) as (RN & W & c0 & c1 & L & E0 & D0 & D1 & F0 & C1 & D2 & F1).
  split; [exact RN|]. pose proof PI_3. assert (C : 0 < cos alpha) by (apply cos_gt_0; lra). assert (B : 0 < rp * cos alpha) by (apply Rmult_lt_0_compat; assumption).
  unfold within. rewrite L. constructor; [|constructor; [|constructor]].
  - intros t T0. rewrite D0, D1 in T0. rewrite F0. exists (rp * cos alpha * (1 + t) / 2).
    assert (0 <= rp * cos alpha * t <= rp * cos alpha). { split; [apply Rmult_le_pos; lra|]. rewrite <- (Rmult_1_r (rp * cos alpha)) at 2. apply Rmult_le_compat_l; lra. }
    split; [lra|]. unfold flank_point. rewrite flank_low by (assumption || lra). split; [lra|reflexivity].
  - intros t T0. rewrite D2 in T0. rewrite F1.
    assert (T2 : t <= 2).
    { apply Rle_trans with (c_t1 c1); [apply T0|]. rewrite C1. unfold plane_involute_flank, top_found in *.
      destruct (ts_meet ts EQUALITY _ _ _ _) as [[ok s2] x1]. cbn [fst snd] in *. set (s1 := snd _) in *.
      change (c_t1 (set_end_on (involute_curve1 rp alpha pia s2) s1)) with (s2t (involute_curve0 rp alpha) s1).
      assert (R0 : rising rad2 (involute_curve0 rp alpha)).
      { split.
        - apply new_fresh.
        - apply NDIV_2.
        - reflexivity.
        - left. eexists. reflexivity.
        - cbn. lra.
        - intros u u' T3 T4 _. rewrite !involute0_fun. change (c_t0 (involute_curve0 rp alpha)) with 0 in T3. apply flank_rising; assumption. }
      destruct (rising_dom rad2 _ s1 R0 ltac:(lra)) as [_ Q]. exact Q. }
    exists (rp * cos alpha * sqrt (1 + t * t)). split; [|split].
    + assert (1 <= sqrt (1 + t * t)) by (rewrite <- sqrt_1 at 1; apply sqrt_le_1_alt; assert (0 <= t * t) by (apply Rmult_le_pos; lra); lra).
      assert (rp * cos alpha * 1 <= rp * cos alpha * sqrt (1 + t * t)) by (apply Rmult_le_compat_l; lra). lra.
    + destruct (pressure_cos (rp * cos alpha) t B ltac:(lra)) as (AT & CT & _ & ->). unfold flank_angle.
      replace (rp * cos alpha / (rp * cos alpha / cos (atan t))) with (cos (atan t)) by (field; lra).
      rewrite Rmin_right by apply COS_bound. rewrite acos_cos by lra. pose proof (inv_small t ltac:(lra)). lra.
    + apply flank_high; [exact P|exact C|lra].
Qed.

Lemma radius_of br p : vx (polar_transform 0 br p) = sqrt (rad2 p).
Proof. unfold polar_transform. destruct (Req_EM_T 0 0); [|contradiction]. unfold xyz_to_cylindrical. cbn [vx]. f_equal. unfold rad2. destruct p. vec_simpl. ring. Qed.

(** The crossing of the flank with the symmetry plane of the tooth is where its polar angle is zero. *)
Lemma plane_crossing fs ts rp alpha pia rs br rdh r : 0 < rp -> 0 < alpha < PI / 2 -> inv alpha <= PI -> 0 < pia + inv alpha < PI ->
  solved ts rp alpha -> top_found ts rp alpha pia -> plane_sound fs (plane_involute_tooth ts rp alpha pia) ->
  0 < rs -> flank_angle rp alpha pia rs = 0 -> crossing fs (plane_involute_tooth ts rp alpha pia) 0 br rdh r -> r = rs.
Proof.
  intros P A I PS S T SO RS E (g & x & _ & EX & ER & _). change (V 0 1 0) with UP in EX. destruct (SO g x EX) as (X & Y).
  destruct (tooth_within2 ts rp alpha pia P A I ltac:(lra) S T) as (RN & W).
  destruct (rn_within rad2 _ _ x RN W X) as (q & Q & QP & EQ). rewrite EQ in Y, ER.
  assert (C : 0 < cos alpha) by (apply cos_gt_0; lra). assert (B : 0 < rp * cos alpha) by (apply Rmult_lt_0_compat; assumption).
  assert (Q0 : 0 < q) by lra. rewrite radius_of in ER. unfold flank_point in ER, Y. rewrite rad2_circle, sqrt_square in ER by lra. subst r.
  cbn [circle_pt vy] in Y. apply Rmult_integral in Y. destruct Y as [Y|Y]; [lra|].
  assert (LO : - PI < flank_angle rp alpha pia q).
  { destruct (pressure_range rp alpha q P C Q0) as (AA & _). unfold flank_angle. set (a := acos _) in *. pose proof (inv_mono 0 a ltac:(lra) ltac:(lra) ltac:(lra)) as M. rewrite inv_0 in M. lra. }
  assert (Z : flank_angle rp alpha pia q = 0).
  { destruct (Rtotal_order (flank_angle rp alpha pia q) 0) as [L|[L|L]]; [exfalso|exact L|exfalso].
    - pose proof (sin_gt_0 (- flank_angle rp alpha pia q) ltac:(lra) ltac:(lra)) as K. rewrite sin_neg in K. lra.
    - pose proof (sin_gt_0 (flank_angle rp alpha pia q) L QP). lra. }
  assert (BS : rp * cos alpha < rs). { destruct (Rlt_dec (rp * cos alpha) rs) as [G|G]; [exact G|exfalso]. rewrite flank_low in E by (assumption || lra). lra. }
  assert (BQ : rp * cos alpha < q). { destruct (Rlt_dec (rp * cos alpha) q) as [G|G]; [exact G|exfalso]. rewrite flank_low in Z by (assumption || lra). lra. }
  destruct (Rtotal_order q rs) as [L|[L|L]]; [exfalso|exact L|exfalso].
  - destruct (flank_angle_mono rp alpha pia q rs P C Q0 ltac:(lra)) as (_ & M). specialize (M L BS). lra.
  - destruct (flank_angle_mono rp alpha pia rs q P C RS ltac:(lra)) as (_ & M). specialize (M L BQ). lra.
Qed.

(** Where the flanks of a tooth meet. *)
Lemma sharp_exists rp alpha pia : 0 < rp -> 0 < alpha < PI / 2 -> 0 < pia + inv alpha ->
  exists rs, rp * cos alpha < rs /\ flank_angle rp alpha pia rs = 0.
Proof.
  intros P A PS. assert (C : 0 < cos alpha) by (apply cos_gt_0; lra). assert (B : 0 < rp * cos alpha) by (apply Rmult_lt_0_compat; assumption).
  destruct (inv_surj_nonneg (pia + inv alpha) ltac:(lra)) as (a & AA & EA). assert (CA : 0 < cos a) by (apply cos_gt_0; lra).
  assert (A0 : 0 < a). { destruct AA as [[AA|<-] _]; [exact AA|]. rewrite inv_0 in EA. lra. }
  exists (rp * cos alpha / cos a). split.
  - assert (cos a < 1). { rewrite <- cos_0. apply cos_decreasing_1; lra. }
    apply Rmult_lt_reg_r with (cos a); [exact CA|]. replace (rp * cos alpha / cos a * cos a) with (rp * cos alpha * 1) by (field; lra).
    apply Rmult_lt_compat_l; lra.
  - unfold flank_angle. replace (rp * cos alpha / (rp * cos alpha / cos a)) with (cos a) by (field; lra). rewrite Rmin_right by apply COS_bound. rewrite acos_cos by lra. lra.
Qed.

(** ** Tip truncation *)
(** Where the flanks of a tooth would meet at the radius [rs], the tip circle is put [red] below it if it was higher, and is left alone
    otherwise; no other circle changes. *)
Theorem C120_tip fs ts rp alpha pia ha hd ho red rs : 0 < rp -> 0 < alpha < PI / 2 -> inv alpha <= PI -> 0 < pia + inv alpha < PI ->
  solved ts rp alpha -> top_found ts rp alpha pia -> let tooth := plane_involute_tooth ts rp alpha pia in plane_sound fs tooth ->
  0 < rp - hd -> 0 < rp + ha -> 0 < red -> rp - hd < rs -> flank_angle rp alpha pia rs = 0 ->
  exists ha', reduced_circles fs tooth (generate_reference_circles rp ha hd ho 0 rp) red 0 rp = generate_reference_circles rp ha' hd ho 0 rp /\
    ((exists g x, In g [1 / 10; 11 / 30; 19 / 30; 9 / 10] /\ fs_plane fs tooth UP g = (true, x)) -> rp + ha' = Rmin (rp + ha) (rs - red)) /\
    (rp + ha + red <= rs -> ha' = ha).
Proof.
  intros P A I PS S T tooth SO RD RA R0 RS E.
  set (rc := generate_reference_circles rp ha hd ho 0 rp).
  assert (HT : forall h, 0 < rp + h -> vx (polar_transform 0 rp (c_eval (ref_circle (ref_point 0 rp rp h)) 0)) = rp + h).
  { intros h H. destruct (ref_circle_at (rp + h) 0 ltac:(lra)) as (K & _). rewrite ref_point_cyl by exact P. rewrite K, radius_of.
    unfold rad2. cbn [vx vy]. rewrite Rmult_0_r, sin_0, cos_0. replace (_ + _) with ((rp + h) * (rp + h)) by ring. apply sqrt_square. lra. }
  set (h := apply_tip_reduction fs tooth (rp + ha) (rp - hd) red 0 rp).
  exists (h - rp). assert (ER : reduced_circles fs tooth rc red 0 rp = generate_reference_circles rp (h - rp) hd ho 0 rp).
  { unfold reduced_circles. destruct (Rlt_dec 0 red); [|contradiction]. unfold rc, generate_reference_circles. cbn [rc_a rc_d rc_p rc_o].
    rewrite !HT by lra. replace (rp + - hd) with (rp - hd) by ring. fold h. f_equal. f_equal. rewrite ref_point_cyl by exact P.
    unfold inverse_polar_transform. destruct (Req_EM_T 0 0); [|contradiction]. unfold cylindrical_to_xyz. cbn [vx vy vz]. rewrite cos_0, sin_0.
    apply vec_eq; vec_simpl; ring. }
  split; [exact ER|]. destruct (C90_reduction fs tooth (rp + ha) (rp - hd) red 0 rp R0) as (UP1 & UP2). fold h in UP1, UP2.
  assert (CR : forall r, crossing fs tooth 0 rp (rp - hd) r -> r = rs).
  { intros r. apply plane_crossing; try assumption. lra. }
  split.
  - intros (g & x & G & EX).
    assert (X : crossing fs tooth 0 rp (rp - hd) rs).
    { set (r := vx (polar_transform 0 rp (n_point tooth x))).
      assert (ERS : r = rs).
      { apply (plane_crossing fs ts rp alpha pia rs rp (r - 1)); try assumption; try lra. exists g, x.
        split; [cbn in G; intuition|]. split; [exact EX|]. split; [reflexivity|lra]. }
      exists g, x. split; [cbn in G; intuition|]. split; [exact EX|]. split; [symmetry; exact ERS|exact RS]. }
    specialize (UP1 _ X). replace (rp + (h - rp)) with h by ring. destruct UP2 as [UP2|(UP2 & r & K & UP3)].
    + rewrite UP2 in *. symmetry. apply Rmin_left. exact UP1.
    + apply CR in K. subst r. rewrite UP3 in *. symmetry. apply Rmin_right. lra.
  - intros HI. destruct UP2 as [UP2|(UP2 & r & K & UP3)]; [lra|]. apply CR in K. lra.
Qed.

(** ** Gears *)
Lemma bare_pia g z : ig_pia (bare g) z = ig_pia g z.
Proof. reflexivity. Qed.
Lemma bare_cyl g n : cyl_gear g n -> cyl_gear (bare g) n.
Proof. intros [A B C D E F G]. split; assumption. Qed.
(** The constructor makes the gear without the two refinements from the parameters without them. *)
Theorem C120_constructor p : ig_new (bare_param p) = bare (ig_new p).
Proof.
  unfold ig_new, bare. cbn [ig_in ig_core]. unfold ip_normalise. cbn [bare_param ip_teeth]. destruct (Rlt_dec (ip_teeth p) 0); reflexivity.
Qed.

(** The tooth curve: no undercut relief where the base circle lies inside the root circle. *)
Theorem C120_tooth ts g n z : cyl_gear g n -> let k := ig_core g in let rp := IZR n / 2 in
  (ip_undercut (ig_in g) = true -> rp * cos (k_alpha k) < rp - k_hd k) ->
  ig_tooth ts g z = ig_tooth ts (bare g) z /\ ig_tooth ts g z = Ok (plane_involute_tooth ts rp (k_alpha k) (ig_pia g z)).
Proof.
  intros CG k rp U. unfold ig_tooth. cbn [bare ig_in ig_core bare_param ip_undercut ip_teeth]. rewrite bare_pia, (cg_cone _ _ CG), (cg_rp _ _ CG).
  fold k rp. destruct (Req_EM_T 0 0); [|contradiction]. unfold involute_undercut_tooth, involute_base, involute_tooth_curve.
  destruct (Req_EM_T 0 0); [|contradiction]. cbn [lm_hd]. destruct (ip_undercut (ig_in g)); [|auto].
  specialize (U eq_refl). destruct (Rlt_dec _ _); [auto|contradiction].
Qed.

(** What the profile at [z] asks for: the base circle inside the root circle, and flanks that meet at least the truncation above the tip. *)
Record untouched (fs : fsolver) (ts : tsolver) (g : igear) (n : Z) (z : R) : Prop := {
  un_alpha : 0 < k_alpha (ig_core g) < PI / 2; un_inv : inv (k_alpha (ig_core g)) <= PI;
  un_pia : 0 < ig_pia g z + inv (k_alpha (ig_core g)) < PI;
  un_solved : solved ts (IZR n / 2) (k_alpha (ig_core g)); un_top : top_found ts (IZR n / 2) (k_alpha (ig_core g)) (ig_pia g z);
  un_plane : plane_sound fs (plane_involute_tooth ts (IZR n / 2) (k_alpha (ig_core g)) (ig_pia g z));
  un_base : ip_undercut (ig_in g) = true -> IZR n / 2 * cos (k_alpha (ig_core g)) < IZR n / 2 - k_hd (ig_core g);
  un_root : 0 < IZR n / 2 - k_hd (ig_core g); un_height : 0 < k_ha (ig_core g) + k_hd (ig_core g);
  un_trunc : 0 < ip_tip_trunc (ig_in g) ->
    flank_angle (IZR n / 2) (k_alpha (ig_core g)) (ig_pia g z) (IZR n / 2 + k_ha (ig_core g) + ip_tip_trunc (ig_in g)) <= 0 }.

Theorem C120_profile sv fs ts g n z : cyl_gear g n -> untouched fs ts g n z -> ig_profile sv fs ts g z = ig_profile sv fs ts (bare g) z.
Proof.
  intros CG [A I PS S T SO U RD HH TR]. destruct (C120_tooth ts g n z CG U) as (E1 & E2). unfold ig_profile. rewrite <- E1, E2. cbn [bind].
  unfold generate_reference_profile. cbn [bare ig_in ig_core bare_param ip_undercut ip_teeth ip_tip_fillet ip_root_fillet ip_tip_trunc].
  rewrite (cg_cone _ _ CG), (cg_rp _ _ CG). set (k := ig_core g) in *. set (rp := IZR n / 2) in *. set (tooth := plane_involute_tooth _ _ _ _) in *.
  set (red := ip_tip_trunc (ig_in g)) in *.
  assert (ER : reduced_circles fs tooth (generate_reference_circles rp (k_ha k) (k_hd k) (k_ho k) 0 rp) red 0 rp =
    reduced_circles fs tooth (generate_reference_circles rp (k_ha k) (k_hd k) (k_ho k) 0 rp) 0 0 rp).
  { rewrite (C90_off _ _ _ 0) by lra. destruct (Rlt_le_dec 0 red) as [R0|R0]; [|apply C90_off, R0]. specialize (TR R0).
    assert (P : 0 < rp). { unfold rp. pose proof (cg_n _ _ CG) as N. apply IZR_lt in N. lra. }
    destruct (sharp_exists rp (k_alpha k) (ig_pia g z) P A ltac:(lra)) as (rs & RS & E0).
    assert (C : 0 < cos (k_alpha k)) by (apply cos_gt_0; lra). assert (B : 0 < rp * cos (k_alpha k)) by (apply Rmult_lt_0_compat; assumption).
    assert (LE : rp + k_ha k + red <= rs).
    { destruct (Rle_dec (rp + k_ha k + red) rs) as [G|G]; [exact G|exfalso].
      destruct (flank_angle_mono rp (k_alpha k) (ig_pia g z) rs (rp + k_ha k + red) P C ltac:(lra) ltac:(lra)) as (_ & M). specialize (M ltac:(lra) ltac:(lra)). lra. }
    destruct (C120_tip fs ts rp (k_alpha k) (ig_pia g z) (k_ha k) (k_hd k) (k_ho k) red rs P A I PS S T SO) as (ha' & EH & _ & K); try assumption; try lra.
    fold tooth in EH. rewrite EH, K by exact LE. reflexivity. }
  rewrite ER. reflexivity.
Qed.

(** The part of a gear without crowning. *)
Definition hbare (h : hgear) : hgear := mkH (bare (h_gear h)) (h_angle h).
Theorem C120_part sv fs ts mid optC optS h n : cyl_gear (h_gear h) n -> ip_crown (ig_in (h_gear h)) = 0 -> untouched fs ts (h_gear h) n 0 ->
  build_part sv fs ts mid optC optS h = build_part sv fs ts mid optC optS (hbare h).
Proof.
  intros CG CR UN. assert (UZ : forall z, untouched fs ts (h_gear h) n z).
  { intros z. destruct UN as [A I PS S T SO U RD HH TR]. split; rewrite ?(pia_const (h_gear h) z 0 CR); assumption. }
  assert (GS : forall z, gear_section sv fs ts mid h z = gear_section sv fs ts mid (hbare h) z).
  { intros z. unfold gear_section. cbn [hbare h_gear]. rewrite (C120_profile sv fs ts _ n z CG (UZ z)). reflexivity. }
  assert (GF : gear_section sv fs ts mid h = gear_section sv fs ts mid (hbare h)).
  { apply FunctionalExtensionality.functional_extensionality. exact GS. }
  unfold build_part, build_gear. unfold section_at. rewrite GF. reflexivity.
Qed.

(** ** Numbers for the default pressure angle of 20 degrees *)
Lemma inv_diff a b : 0 <= a -> a <= b -> b < PI / 2 -> inv b - inv a <= sin b * (/ cos b - / cos a).
Proof.
  intros A L B. assert (CA : 0 < cos a) by (apply cos_gt_0; lra). assert (CB : 0 < cos b) by (apply cos_gt_0; lra).
  set (d := b - a). assert (SD : sin b - sin a <= cos a * d).
  { replace b with (a + d) by (unfold d; ring). rewrite sin_plus. assert (0 <= sin a) by (apply sin_ge_0; lra).
    assert (sin d <= d). { destruct (Req_dec d 0) as [->|N]; [rewrite sin_0; lra|]. left. apply sin_lt_x. unfold d in *. lra. }
    pose proof (COS_bound d) as CD. assert (sin a * cos d <= sin a * 1) by (apply Rmult_le_compat_l; lra).
    assert (cos a * sin d <= cos a * d) by (apply Rmult_le_compat_l; lra). lra. }
  unfold inv, tan. assert (Q : (sin b - sin a) * / cos a <= d).
  { apply Rmult_le_reg_r with (cos a); [exact CA|]. rewrite Rmult_assoc, Rinv_l by lra. lra. }
  unfold Rdiv, d in *. lra.
Qed.

Lemma cos20 : let c := cos (20 * PI / 180) in 9385 / 10000 < c < 94 / 100 /\ 0 < sin (20 * PI / 180) < 36 / 100.
Proof.
  cbv zeta. set (a := 20 * PI / 180). assert (PP := PI_RGT_0). set (c := cos a).
  assert (T3 : 4 * (c * c * c) - 3 * c = / 2).
  { assert (E : cos (3 * a) = / 2). { replace (3 * a) with (PI / 3) by (unfold a; field). rewrite cos_PI3. lra. }
    replace (3 * a) with (2 * a + a) in E by ring. rewrite cos_plus, cos_2a, sin_2a in E. pose proof (sc1 a) as S. fold c in E, S.
    rewrite <- E. replace ((c * c - sin a * sin a) * c - 2 * sin a * c * sin a) with (c * c * c - 3 * c * (sin a * sin a)) by ring.
    replace (sin a * sin a) with (1 - c * c) by lra. ring. }
  assert (CH : / 2 < c). { rewrite <- (Rmult_1_l (/ 2)). rewrite <- cos_PI3 at 1. apply cos_decreasing_1; unfold a; lra. }
  assert (C1 : c < 94 / 100).
  { destruct (Rlt_dec c (94 / 100)) as [G|G]; [exact G|exfalso]. assert (94 / 100 * (94 / 100) <= c * c) by (apply Rmult_le_compat; lra).
    assert (94 / 100 * (4 * (94 / 100 * (94 / 100)) - 3) <= c * (4 * (c * c) - 3)) by (apply Rmult_le_compat; lra). lra. }
  assert (C0 : 9385 / 10000 < c).
  { destruct (Rlt_dec (9385 / 10000) c) as [G|G]; [exact G|exfalso]. assert (c * c <= 9385 / 10000 * (9385 / 10000)) by (apply Rmult_le_compat; lra).
    destruct (Rle_dec 0 (4 * (c * c) - 3)) as [K|K].
    - assert (c * (4 * (c * c) - 3) <= 9385 / 10000 * (4 * (9385 / 10000 * (9385 / 10000)) - 3)) by (apply Rmult_le_compat; lra). lra.
    - assert (0 < c * (3 - 4 * (c * c))) by (apply Rmult_lt_0_compat; lra). lra. }
  split; [split; assumption|]. assert (S0 : 0 < sin a) by (apply sin_gt_0; unfold a; lra). split; [exact S0|].
  pose proof (sc1 a) as S. fold c in S. apply sq_lt; try lra. assert (9385 / 10000 * (9385 / 10000) < c * c) by (apply Rmult_le_0_lt_compat; lra). lra.
Qed.

(** With the default dedendum of 1.2 modules the base circle lies inside the root circle from forty teeth on. *)
Theorem C120_threshold n : (0 < n)%Z -> (IZR n / 2 * cos (20 * PI / 180) < IZR n / 2 - 6 / 5 <-> (40 <= n)%Z).
Proof.
  intros N. destruct cos20 as ((C0 & C1) & _). set (c := cos _) in *. split.
  - intros H. destruct (Z_le_gt_dec 40 n) as [G|G]; [exact G|exfalso]. assert (M : (n <= 39)%Z) by lia. apply IZR_le in M. apply IZR_lt in N.
    assert (IZR n * (1 - c) <= 39 * (615 / 10000)) by (apply Rmult_le_compat; lra). lra.
  - intros M. apply IZR_le in M. assert (40 * (6 / 100) < IZR n * (1 - c)); [|lra].
    apply Rlt_le_trans with (40 * (1 - c)); [lra|]. apply Rmult_le_compat_r; lra.
Qed.

(** ** SpurGear with the default parameters, gggears_wrapper.py 824-842 *)
Definition default_spur (n : Z) (height : R) (center : vec) (angle module zanchor : R) : igear :=
  ig_new (mkIP (IZR n) height 0 0 center angle module true 0 0 (1 / 10) 0 1 (6 / 5) (20 * PI / 180) 0 0 false zanchor).

Section Default.
  Variables (n : Z) (height : R) (center : vec) (angle module zanchor : R).
  Hypothesis N : (40 <= n)%Z.
  Let g := default_spur n height center angle module zanchor.
  Let rp := IZR n / 2.
  Let al := 20 * PI / 180.
  Let pia := PI / (2 * IZR n).

  Lemma df_n : 40 <= IZR n. Proof. apply IZR_le, N. Qed.
  Lemma df_normal : ig_in g = mkIP (IZR n) height 0 0 center angle module true 0 0 (1 / 10) 0 1 (6 / 5) al 0 0 false zanchor.
  Proof. pose proof df_n. unfold g, default_spur, ig_new, ip_normalise. cbn [ip_teeth]. destruct (Rlt_dec _ _); [lra|reflexivity]. Qed.
  Lemma df_core : ig_core g = calc_params (mkIP (IZR n) height 0 0 center angle module true 0 0 (1 / 10) 0 1 (6 / 5) al 0 0 false zanchor).
  Proof. pose proof df_n. unfold g, default_spur, ig_new, ip_normalise. cbn [ip_teeth]. destruct (Rlt_dec _ _); [lra|reflexivity]. Qed.
  Lemma df_k : k_ha (ig_core g) = 1 /\ k_hd (ig_core g) = 6 / 5 /\ k_alpha (ig_core g) = al /\ (forall z, ig_pia g z = pia) /\ length (k_zvals (ig_core g)) = 2%nat.
  Proof.
    pose proof df_n. rewrite df_core. split; [cbn; ring|]. split; [cbn; field|]. split; [reflexivity|]. split; [|reflexivity].
    intros z. unfold ig_pia, crowning. rewrite df_normal, df_core. cbn [calc_params k_tooth_angle ip_crown ip_height k_rp ip_teeth ip_shift ip_alpha ip_backlash].
    unfold pia. unfold Rdiv. rewrite !Rmult_0_l, !Rmult_0_r, !Rmult_0_l. field. lra.
  Qed.
  Lemma df_cyl : cyl_gear g n.
  Proof. apply (C116_kinds (mkIP (IZR n) height 0 0 center angle module true 0 0 (1 / 10) 0 1 (6 / 5) al 0 0 false zanchor) n); try reflexivity; lia. Qed.

  Lemma df_al : 0 < al < PI / 2 /\ 0 < inv al < 1 /\ 15 / 10 < pia * IZR n /\ 0 < pia <= 1 / 20 /\ rp * cos al < rp - 6 / 5.
  Proof.
    pose proof df_n. pose proof PI_3. pose proof PI_4. destruct cos20 as ((C0 & C1) & S0 & S1). fold al in C0, C1, S0, S1.
    assert (A : 0 < al < PI / 2) by (unfold al; lra). split; [exact A|]. split.
    - split.
      + pose proof (inv_strict 0 al ltac:(lra) ltac:(lra) ltac:(lra)) as K. rewrite inv_0 in K. exact K.
      + unfold inv, tan. apply Rlt_trans with (sin al / cos al); [lra|]. apply Rmult_lt_reg_r with (cos al); [lra|]. unfold Rdiv. rewrite Rmult_assoc, Rinv_l by lra. lra.
    - assert (EP : pia * IZR n = PI / 2) by (unfold pia; field; lra). split; [lra|]. split.
      + assert (0 < pia) by (unfold pia; apply Rdiv_lt_0_compat; lra). split; [assumption|].
        assert (pia * 40 <= pia * IZR n) by (apply Rmult_le_compat_l; lra). lra.
      + unfold rp, al. apply C120_threshold; [lia|exact N].
  Qed.

  (** The pressure angle at the radius [r] outside the base circle. *)
  Lemma df_angle r : rp * cos al <= r -> exists a, 0 <= a < PI / 2 /\ cos a = rp * cos al / r /\ flank_angle rp al pia r = inv a - inv al - pia.
  Proof.
    intros H. destruct df_al as (A & _). pose proof df_n. assert (C : 0 < cos al) by (apply cos_gt_0; lra).
    assert (P : 0 < rp) by (unfold rp; lra). assert (B : 0 < rp * cos al) by (apply Rmult_lt_0_compat; assumption).
    destruct (pressure_range rp al r P C ltac:(lra)) as (AA & CA). exists (acos (Rmin 1 (rp * cos al / r))). split; [exact AA|]. split; [|reflexivity].
    rewrite CA. apply Rmin_right. apply Rmult_le_reg_r with r; [lra|]. unfold Rdiv. rewrite Rmult_assoc, Rinv_l by lra. lra.
  Qed.

  Lemma df_tip h : 0 <= h <= 11 / 10 -> flank_angle rp al pia (rp + h) <= - ((15 / 10 - 12 / 10 * h) / IZR n).
  Proof.
    intros H. pose proof df_n as NN. destruct df_al as (A & I & P1 & _ & _). destruct cos20 as ((C0 & C1) & S0 & S1). fold al in C0, C1, S0, S1.
    assert (P : 20 <= rp) by (unfold rp; lra).
    assert (B : rp * cos al <= rp * 1) by (apply Rmult_le_compat_l; lra).
    destruct (df_angle (rp + h) ltac:(lra)) as (b & BB & CB & ->).
    assert (CBP : 88 / 100 <= cos b).
    { rewrite CB. apply Rmult_le_reg_r with (rp + h); [lra|]. unfold Rdiv. rewrite (Rmult_assoc (rp * cos al)), Rinv_l, Rmult_1_r by lra.
      assert (rp * (93 / 100) <= rp * cos al) by (apply Rmult_le_compat_l; lra). lra. }
    assert (L : al <= b).
    { destruct (Rle_dec al b) as [G|G]; [exact G|exfalso]. assert (K : cos al < cos b) by (apply cos_decreasing_1; lra). rewrite CB in K.
      apply (Rmult_lt_compat_r (rp + h)) in K; [|lra]. unfold Rdiv in K. rewrite (Rmult_assoc (rp * cos al)), Rinv_l, Rmult_1_r in K by lra.
      assert (0 <= cos al * h) by (apply Rmult_le_pos; lra). lra. }
    pose proof (inv_diff al b ltac:(lra) L ltac:(lra)) as D.
    assert (ED : / cos b - / cos al = h / (rp * cos al)). { rewrite CB. field. lra. }
    rewrite ED in D.
    assert (SB : 0 <= sin b <= 48 / 100).
    { assert (0 <= sin b) by (apply sin_ge_0; lra). split; [assumption|]. pose proof (sc1 b) as Q.
      assert (88 / 100 * (88 / 100) <= cos b * cos b) by (apply Rmult_le_compat; lra). apply Rsqr_incr_0; unfold Rsqr; lra. }
    assert (D2 : inv b - inv al <= 12 / 10 * h / IZR n).
    { eapply Rle_trans; [exact D|]. apply Rmult_le_reg_r with (IZR n); [lra|]. unfold rp in *. replace (sin b * (h / (IZR n / 2 * cos al)) * IZR n) with (h * (2 * sin b / cos al)) by (field; lra).
      replace (12 / 10 * h / IZR n * IZR n) with (h * (12 / 10)) by (field; lra). apply Rmult_le_compat_l; [lra|].
      apply Rmult_le_reg_r with (cos al); [lra|]. replace (2 * sin b / cos al * cos al) with (2 * sin b) by (field; lra). lra. }
    assert (P2 : 15 / 10 / IZR n <= pia). { apply Rmult_le_reg_r with (IZR n); [lra|]. replace (15 / 10 / IZR n * IZR n) with (15 / 10) by (field; lra). lra. }
    unfold Rdiv in *. lra.
  Qed.

  Lemma df_root : 5 / 10 / IZR n - PI / IZR n <= flank_angle rp al pia (rp - 6 / 5) < 0.
  Proof.
    pose proof df_n as NN. destruct df_al as (A & I & P1 & P2 & BR). destruct cos20 as ((C0 & C1) & S0 & S1). fold al in C0, C1, S0, S1.
    assert (P : 20 <= rp) by (unfold rp; lra).
    destruct (df_angle (rp - 6 / 5) ltac:(lra)) as (a & AA & CA & ->).
    assert (CAP : 0 < cos a) by (apply cos_gt_0; lra).
    assert (L : a <= al).
    { destruct (Rle_dec a al) as [G|G]; [exact G|exfalso]. assert (K : cos a < cos al) by (apply cos_decreasing_1; lra). rewrite CA in K.
      apply (Rmult_lt_compat_r (rp - 6 / 5)) in K; [|lra]. unfold Rdiv in K. rewrite (Rmult_assoc (rp * cos al)), Rinv_l, Rmult_1_r in K by lra. lra. }
    pose proof (inv_diff a al ltac:(lra) L ltac:(lra)) as D.
    assert (ED : / cos al - / cos a = 6 / 5 / (rp * cos al)). { rewrite CA. field. lra. }
    rewrite ED in D. pose proof (inv_mono a al ltac:(lra) L ltac:(lra)).
    assert (D2 : inv al - inv a <= 1 / IZR n).
    { eapply Rle_trans; [exact D|]. apply Rmult_le_reg_r with (IZR n); [lra|]. unfold rp in *. replace (sin al * (6 / 5 / (IZR n / 2 * cos al)) * IZR n) with (24 / 10 * sin al / cos al) by (field; lra).
      replace (1 / IZR n * IZR n) with 1 by (field; lra).
      apply Rmult_le_reg_r with (cos al); [lra|]. replace (24 / 10 * sin al / cos al * cos al) with (24 / 10 * sin al) by (field; lra). lra. }
    assert (EP : PI / IZR n = 2 * pia) by (unfold pia; field; lra).
    assert (P3 : 15 / 10 / IZR n <= pia). { apply Rmult_le_reg_r with (IZR n); [lra|]. replace (15 / 10 / IZR n * IZR n) with (15 / 10) by (field; lra). lra. }
    rewrite EP. split; [|lra]. unfold Rdiv in *. lra.
  Qed.

  Lemma df_spur : spur rp al pia 1 (6 / 5) (2 * PI / IZR n).
  Proof.
    pose proof df_n as NN. destruct df_al as (A & I & P1 & P2 & BR). pose proof df_root as R0. pose proof (df_tip 1 ltac:(lra)) as T0. pose proof PI_3.
    assert (IN : 0 < / IZR n) by (apply Rinv_0_lt_compat; lra).
    assert (EP : 2 * PI / IZR n = 4 * pia) by (unfold pia; field; lra).
    assert (EQ : PI / IZR n = 2 * pia) by (unfold pia; field; lra).
    split; try lra; try (unfold rp; lra); rewrite ?EP; unfold Rdiv in *; lra.
  Qed.

  (** The premises about the searches. *)
  Theorem C120_default_untouched fs ts z : solved ts rp al -> top_found ts rp al pia -> plane_sound fs (plane_involute_tooth ts rp al pia) ->
    untouched fs ts g n z.
  Proof.
    intros S T SO. destruct df_k as (EA & ED & EAL & EP & _). pose proof df_n as NN. destruct df_al as (A & I & P1 & P2 & BR). pose proof PI_3.
    split; rewrite ?EAL, ?EP, ?EA, ?ED, ?df_normal; try assumption; try lra.
    - intros _. exact BR.
    - cbn [ip_tip_trunc]. intros _. fold rp. pose proof (df_tip (1 + 1 / 10) ltac:(lra)) as T0. rewrite <- Rplus_assoc in T0.
      assert (0 < / IZR n) by (apply Rinv_0_lt_compat; lra). unfold Rdiv in *. lra.
  Qed.

  (** build_part() of such a gear succeeds and the skin of the part is closed; the teeth are involutes between the root circle of radius
      n/2 - 1.2 and the tip circle of radius n/2 + 1. *)
  Theorem C120_default sv fs ts mid optC optS : plane_sound fs (plane_involute_tooth ts rp al pia) ->
    crossings_found sv ts (bare g) n 0 ->
    exists t c, build_part sv fs ts mid optC optS (as_hgear g) = Ok c /\ paired (all_edges c) /\
      length (cy_sides c) = (Z.to_nat n * (2 * (1 + length (leaves t))))%nat /\
      ig_profile sv fs ts g 0 = ig_profile sv fs ts (bare g) 0 /\
      n_point t 0 = flank_point rp al pia (rp - 6 / 5) /\ n_point t 1 = flank_point rp al pia (rp + 1) /\
      toothed sv fs ts (bare g) n 0 t.
  Proof.
    intros SO CF. destruct df_k as (EA & ED & EAL & EP & EZ). pose proof df_n as NN. destruct df_al as (A & I & P1 & P2 & BR). pose proof df_root as R0. pose proof (df_tip 1 ltac:(lra)) as T0. pose proof PI_3. pose proof PI_4.
    assert (IN : 0 < / IZR n) by (apply Rinv_0_lt_compat; lra). assert (IN1 : / IZR n <= / 40) by (apply Rinv_le_contravar; lra).
    assert (E1 : IZR n * / IZR n = 1) by (field; lra).
    pose proof df_cyl as CG. pose proof (bare_cyl g n CG) as CB.
    pose proof CF as (S & T & _). unfold crossings_found in S, T. cbn [bare ig_core] in S, T. rewrite bare_pia, EAL, EP in *.
    pose proof (C120_default_untouched fs ts 0 S T SO) as UN.
    assert (CR : ip_crown (ig_in g) = 0) by (rewrite df_normal; reflexivity). assert (HX : ip_helix (ig_in g) = 0) by (rewrite df_normal; reflexivity).
    assert (SL : forall x, 3 / 10 / IZR n <= x <= 1 -> 2 / 10 / IZR n <= sin x).
    { intros x X. pose proof (IndexProps.sin_lower x) as L. assert (X0 : 0 <= 3 / 10 / IZR n) by (unfold Rdiv; apply Rmult_le_pos; lra).
      assert (SX : 0 <= sin x) by (apply sin_ge_0; lra). rewrite (Rabs_right x), (Rabs_right (sin x)) in L by lra. unfold Rdiv in X. eapply Rle_trans; [|exact L].
      assert (0 <= x * x <= 1) by nra. apply Rle_trans with (x * (5 / 6)); [unfold Rdiv; lra|]. apply Rmult_le_compat_l; lra. }
    assert (EPI : PI / IZR n = 2 * pia) by (unfold pia; field; lra).
    assert (EPJ : 2 * PI / IZR n / 2 = 2 * pia) by (unfold pia; field; lra).
    destruct (C116_involute sv fs ts (bare g) n 0 CB) as (t & TD & Q0 & Q1).
    - split; cbn [bare ig_in bare_param ip_undercut ip_tip_fillet ip_root_fillet ip_tip_trunc]; rewrite ?df_normal; reflexivity.
    - cbn [bare ig_core]. rewrite bare_pia, EAL, EP, EA, ED. apply df_spur.
    - exact CF.
    - cbn [bare ig_core]. rewrite bare_pia, EAL, EP, EA. fold rp.
      assert (LO : - pia - 1 <= flank_angle rp al pia (rp + 1)).
      { unfold flank_angle. destruct (pressure_range rp al (rp + 1)) as (AA & _); try (unfold rp; lra); [apply cos_gt_0; lra|].
        set (a := acos _) in *. pose proof (inv_mono 0 a ltac:(lra) ltac:(lra) ltac:(lra)) as M. rewrite inv_0 in M. lra. }
      assert (LO2 : - 1 <= flank_angle rp al pia (rp + 1)).
      { destruct (flank_angle_mono rp al pia (rp - 6 / 5) (rp + 1)) as (M & _); try (unfold rp; lra); [apply cos_gt_0; lra|]. unfold Rdiv in *. lra. }
      specialize (SL (- flank_angle rp al pia (rp + 1)) ltac:(unfold Rdiv in *; lra)).
      apply Rlt_le_trans with (IZR n * (2 / 10 / IZR n)); [unfold Rdiv; replace (IZR n * (2 * / 10 * / IZR n)) with (2 * / 10 * (IZR n * / IZR n)) by ring; rewrite E1; lra|].
      apply Rmult_le_compat; try (unfold rp; lra). unfold Rdiv. lra.
    - cbn [bare ig_core]. rewrite bare_pia, EAL, EP, ED. fold rp. rewrite EPJ.
      specialize (SL (2 * pia + flank_angle rp al pia (rp - 6 / 5)) ltac:(unfold Rdiv in *; lra)).
      apply Rlt_le_trans with (IZR n / 2 * (2 / 10 / IZR n)); [unfold Rdiv; replace (IZR n * / 2 * (2 * / 10 * / IZR n)) with (1 * / 10 * (IZR n * / IZR n)) by (field; lra); rewrite E1; lra|].
      apply Rmult_le_compat; try (unfold rp; lra). unfold Rdiv. lra.
    - cbn [bare ig_core]. rewrite ED. fold rp. rewrite EPI. assert (P3 : 15 / 10 / IZR n <= pia) by (apply Rmult_le_reg_r with (IZR n); [lra|]; replace (15 / 10 / IZR n * IZR n) with (15 / 10) by (field; lra); lra).
      specialize (SL (2 * pia) ltac:(unfold Rdiv in *; lra)).
      apply Rle_trans with (IZR n / 2 * (2 / 10 / IZR n)); [unfold Rdiv; replace (IZR n * / 2 * (2 * / 10 * / IZR n)) with (1 * / 10 * (IZR n * / IZR n)) by (field; lra); rewrite E1; unfold DELTA; lra|].
      apply Rmult_le_compat; try (unfold rp; lra).
    - cbn [bare ig_core] in Q0, Q1. rewrite bare_pia, EAL, EP, ED in Q0. rewrite bare_pia, EAL, EP, EA in Q1.
      destruct (C116_spur sv fs ts mid optC optS (hbare (as_hgear g)) n t) as (c & EB & PA & LC); try assumption.
      { cbn [hbare as_hgear h_gear bare ig_core]. rewrite EZ. lia. }
      exists t, c. rewrite (C120_part sv fs ts mid optC optS (as_hgear g) n CG CR UN). split; [exact EB|]. split; [exact PA|]. split.
      { rewrite LC. cbn [hbare as_hgear h_gear bare ig_core]. rewrite EZ. f_equal. lia. }
      split; [apply (C120_profile sv fs ts g n 0 CG UN)|]. split; [exact Q0|]. split; [exact Q1|exact TD].
  Qed.
End Default.

(** ** The searches have answers *)
(** Where the generator ends the flank in the symmetry plane of the tooth, a search finds that end. *)
Lemma sharp_searches rp alpha pia : 0 < rp -> 0 < alpha < PI / 2 -> inv alpha <= PI -> 0 < pia + inv alpha <= 39 / 100 ->
  exists ts rs x0, solved ts rp alpha /\ top_found ts rp alpha pia /\ rp * cos alpha < rs /\ flank_angle rp alpha pia rs = 0 /\
    c_eval (plane_involute_flank ts rp alpha pia) 1 = flank_point rp alpha pia rs /\
    0 <= x0 <= 1 /\ n_point (plane_involute_tooth ts rp alpha pia) x0 = flank_point rp alpha pia rs.
Proof.
  intros P A I PS. pose proof PI_4. assert (C : 0 < cos alpha) by (apply cos_gt_0; lra). assert (B : 0 < rp * cos alpha) by (apply Rmult_lt_0_compat; assumption).
  destruct (C42_solver_value_exists rp alpha P ltac:(lra)) as (s2 & E).
  destruct (inv_surj_nonneg (pia + inv alpha) ltac:(lra)) as (a & AA & EA).
  assert (A0 : 0 < a). { destruct AA as [[AA|<-] _]; [exact AA|]. rewrite inv_0 in EA. lra. }
  assert (CA : 0 < cos a) by (apply cos_gt_0; lra).
  assert (T0 : 0 < tan a) by (apply tan_gt_0; lra).
  assert (T2 : tan a <= 2).
  { destruct (Rle_dec (tan a) 2) as [G|G]; [exact G|exfalso]. assert (S3 : 1731 / 1000 < sqrt 3) by (apply sqrt_bound; lra). assert (S3' : sqrt 3 < 2) by (apply sqrt_bound_up; lra).
    assert (AT : PI / 3 < a). { rewrite <- (atan_tan a), <- (atan_tan (PI / 3)) by lra. apply atan_increasing. rewrite tan_PI3. lra. }
    pose proof (inv_strict (PI / 3) a ltac:(lra) AT ltac:(lra)) as K. unfold inv at 1 in K. rewrite tan_PI3 in K. lra. }
  assert (R0 : rising rad2 (involute_curve0 rp alpha)).
  { split.
    - apply new_fresh.
    - apply NDIV_2.
    - reflexivity.
    - left. eexists. reflexivity.
    - cbn. lra.
    - intros u u' T3 T4 _. rewrite !involute0_fun. change (c_t0 (involute_curve0 rp alpha)) with 0 in T3. apply flank_rising; assumption. }
  destruct (rising_hit rad2 _ (tan a) R0 ltac:(change (c_t0 (involute_curve0 rp alpha)) with 0; change (c_t1 (involute_curve0 rp alpha)) with 2; lra)) as (s1 & S1 & ES).
  assert (S0 : 0 < s1). { destruct (Req_dec s1 0) as [->|]; [|lra]. destruct (rising_ends rad2 _ R0) as (K & _). rewrite K in ES. change (0 = tan a) in ES. lra. }
  set (ts := mkTs (fun _ _ _ _ _ => (true, s2, 0)) (fun _ _ _ _ _ => (true, s1)) (fun _ _ => 0) (fun _ _ => (0, 0)) (fun _ _ _ => (0, 0))).
  assert (SV : solved ts rp alpha) by exact E. assert (TF : top_found ts rp alpha pia) by (unfold top_found; cbn; lra).
  set (rs := rp * cos alpha / cos a).
  destruct (tooth_rising ts rp alpha pia P A I SV TF) as (RN & W & c0 & c1 & L & E0 & D0 & D1 & F0 & C1 & D2 & F1).
  assert (T1 : c_t1 c1 = tan a). { rewrite C1. unfold plane_involute_flank. cbn [ts_meet ts_plane snd ts]. exact ES. }
  pose proof (rn_leaves _ _ RN) as RL. rewrite L in RL. inversion RL as [|? ? R00 RL']; subst. inversion RL' as [|? ? R1 _]; subst.
  set (fl := plane_involute_flank ts rp alpha pia) in *.
  assert (EV : c_eval fl 1 = flank_point rp alpha pia rs).
  { unfold c_eval. destruct (rising_ends rad2 fl R1) as (_ & ->). rewrite F1, T1, flank_high by (assumption || lra). f_equal.
    destruct (pressure_cos (rp * cos alpha) (tan a) B ltac:(lra)) as (_ & _ & _ & ->). rewrite atan_tan by lra. reflexivity. }
  destruct (leaf_place rad2 _ [c0] fl [] 1 RN L ltac:(lra) (or_intror Rlt_0_1)) as (x0 & X & _ & _ & PX).
  exists ts, rs, x0. split; [exact SV|]. split; [exact TF|]. split; [|split; [|split; [exact EV|split; [lra|rewrite PX; exact EV]]]].
  - assert (cos a < 1). { rewrite <- cos_0. apply cos_decreasing_1; lra. }
    apply Rmult_lt_reg_r with (cos a); [exact CA|]. unfold rs. replace (rp * cos alpha / cos a * cos a) with (rp * cos alpha * 1) by (field; lra).
    apply Rmult_lt_compat_l; lra.
  - unfold flank_angle, rs. replace (rp * cos alpha / (rp * cos alpha / cos a)) with (cos a) by (field; lra). rewrite Rmin_right by apply COS_bound. rewrite acos_cos by lra. lra.
Qed.
Lemma sharp_sound n x0 rp alpha pia rs : 0 <= x0 <= 1 -> n_point n x0 = flank_point rp alpha pia rs -> flank_angle rp alpha pia rs = 0 -> plane_sound (meets_at x0) n.
Proof.
  intros X E Z g x EX. unfold meets_at in EX. cbn [fs_plane] in EX. injection EX as <-. split; [exact X|]. rewrite E. unfold flank_point. rewrite Z. cbn [circle_pt vy]. rewrite sin_0. ring.
Qed.

Theorem C120_default_solvable n height center angle module zanchor : (40 <= n)%Z -> let g := default_spur n height center angle module zanchor in
  exists sv fs ts, plane_sound fs (plane_involute_tooth ts (IZR n / 2) (20 * PI / 180) (PI / (2 * IZR n))) /\
    (forall g, exists x, fs_plane fs (plane_involute_tooth ts (IZR n / 2) (20 * PI / 180) (PI / (2 * IZR n))) UP g = (true, x)) /\
    crossings_found sv ts (bare g) n 0.
Proof.
  intros N g. pose proof (df_n n N) as NN. destruct (df_al n N) as (A & I & P1 & P2 & BR). pose proof PI_3. pose proof PI_4.
  set (al := 20 * PI / 180) in *. set (pia := PI / (2 * IZR n)) in *. set (rp := IZR n / 2) in *.
  assert (P : 0 < rp) by (unfold rp; lra). assert (C : 0 < cos al) by (apply cos_gt_0; lra).
  destruct cos20 as ((C0 & C1) & S0 & S1). fold al in C0, C1, S0, S1.
  assert (IA : inv al <= 1 / 10).
  { unfold inv, tan. assert (sin al / cos al <= 4 / 10); [|unfold al in *; lra]. apply Rmult_le_reg_r with (cos al); [exact C|]. replace (sin al / cos al * cos al) with (sin al) by (field; lra). lra. }
  destruct (sharp_searches rp al pia P A ltac:(lra) ltac:(lra)) as (ts & rs & x0 & SV & TF & RS & Z & EV & X & EX).
  assert (LE : rp + 1 <= rs).
  { destruct (Rle_dec (rp + 1) rs) as [G|G]; [exact G|exfalso]. assert (0 < rp * cos al) by (apply Rmult_lt_0_compat; assumption).
    destruct (flank_angle_mono rp al pia rs (rp + 1) P C ltac:(lra) ltac:(lra)) as (M & _). pose proof (df_tip n N 1 ltac:(lra)) as T0. fold al rp pia in T0.
    assert (0 < / IZR n) by (apply Rinv_0_lt_compat; lra). unfold Rdiv in T0. rewrite Z in M. lra. }
  destruct (df_k n height center angle module zanchor N) as (EA & ED & EAL & EP & _). fold g al pia in EA, ED, EAL, EP.
  assert (CP : rp * cos al <= rp * (94 / 100)) by (apply Rmult_le_compat_l; lra).
  destruct (C105_solvable ts rp al pia 1 (6 / 5) (k_ho (ig_core g)) rp (2 * PI / IZR n) (df_spur n N) SV TF) as (sv & TIP & ROOT).
  - unfold rp in *. lra.
  - lra.
  - rewrite EV. unfold flank_point. rewrite circle_pt_norm by lra. exact LE.
  - exists sv, (meets_at x0), ts. split; [apply (sharp_sound _ x0 rp al pia rs X EX Z)|]. split; [intros g0; exists x0; reflexivity|].
    unfold crossings_found. cbn [bare ig_core]. rewrite bare_pia, EAL, EP, EA, ED. fold rp. split; [exact SV|]. split; [exact TF|]. split; [exact TIP|exact ROOT].
Qed.

(** ** Examples *)
(** SpurGear(40): the searches for the symmetry plane succeed, the part is the one of the gear without undercut relief and truncation. *)
Example C120_default_example : exists sv fs ts, forall mid optC optS, exists c,
  build_part sv fs ts mid optC optS (as_hgear (default_spur 40 1 ORIGIN 0 1 0)) = Ok c /\ paired (all_edges c) /\ cy_sides c <> [].
Proof.
  destruct (C120_default_solvable 40 1 ORIGIN 0 1 0 ltac:(lia)) as (sv & fs & ts & SO & _ & CF). exists sv, fs, ts. intros mid optC optS.
  destruct (C120_default 40 1 ORIGIN 0 1 0 ltac:(lia) sv fs ts mid optC optS SO CF) as (t & c & EB & PA & LC & _). exists c. split; [exact EB|]. split; [exact PA|].
  intros E. rewrite E in LC. revert LC. generalize (leaves t). intros l. cbn [length]. lia.
Qed.
Example C120_default_untouched_example : exists fs ts, untouched fs ts (default_spur 40 1 ORIGIN 0 1 0) 40 0 /\ ip_undercut (ig_in (default_spur 40 1 ORIGIN 0 1 0)) = true /\
  ip_tip_trunc (ig_in (default_spur 40 1 ORIGIN 0 1 0)) = 1 / 10 /\ cyl_gear (default_spur 40 1 ORIGIN 0 1 0) 40.
Proof.
  destruct (C120_default_solvable 40 1 ORIGIN 0 1 0 ltac:(lia)) as (sv & fs & ts & SO & _ & CF). exists fs, ts.
  destruct CF as (S & T & _). cbn [bare ig_core] in S, T. destruct (df_k 40 1 ORIGIN 0 1 0 ltac:(lia)) as (EA & ED & EAL & EP & _). rewrite bare_pia, EAL, EP in *.
  split; [apply C120_default_untouched; try assumption; lia|]. rewrite (df_normal 40 1 ORIGIN 0 1 0 ltac:(lia)). split; [reflexivity|]. split; [reflexivity|]. apply df_cyl; lia.
Qed.
Example C120_profile_example : exists fs ts, forall sv, ig_profile sv fs ts (default_spur 40 1 ORIGIN 0 1 0) 0 =
  ig_profile sv fs ts (ig_new (mkIP 40 1 0 0 ORIGIN 0 1 false 0 0 0 0 1 (6 / 5) (20 * PI / 180) 0 0 false 0)) 0.
Proof.
  destruct C120_default_untouched_example as (fs & ts & UN & _ & _ & CG). exists fs, ts. intros sv. rewrite (C120_profile sv fs ts _ 40 0 CG UN).
  unfold default_spur. rewrite <- C120_constructor. reflexivity.
Qed.
Example C120_tooth_example ts : ig_tooth ts (default_spur 40 1 ORIGIN 0 1 0) 0 = ig_tooth ts (bare (default_spur 40 1 ORIGIN 0 1 0)) 0.
Proof.
  apply (C120_tooth ts _ 40 0); [apply df_cyl; lia|]. intros _. destruct (df_k 40 1 ORIGIN 0 1 0 ltac:(lia)) as (_ & -> & -> & _). apply C120_threshold; lia.
Qed.
(** With 39 teeth the base circle lies outside the root circle. *)
Example C120_threshold_example : ~ 39 / 2 * cos (20 * PI / 180) < 39 / 2 - 6 / 5.
Proof. intros H. apply (C120_threshold 39 ltac:(lia)) in H. lia. Qed.
(** Eight teeth, pressure angle 30 degrees and an addendum of three modules: the flanks meet below 4 sqrt 3, so the tip goes below that. *)
Example C120_tip_example : exists fs ts rs ha', let tooth := plane_involute_tooth ts 4 (PI / 6) (PI / 16) in
  reduced_circles fs tooth (generate_reference_circles 4 3 1 2 0 4) (1 / 10) 0 4 = generate_reference_circles 4 ha' 1 2 0 4 /\
  flank_angle 4 (PI / 6) (PI / 16) rs = 0 /\ rs < 4 * sqrt 3 /\ 4 + ha' = rs - 1 / 10 /\ 4 + ha' < 4 + 3.
Proof.
  pose proof PI_3. pose proof PI_4.
  assert (C : cos (PI / 6) = sqrt 3 / 2) by apply cos_PI6.
  assert (S3 : 17 / 10 < sqrt 3) by (apply sqrt_bound; lra). assert (S3' : sqrt 3 < 1733 / 1000) by (apply sqrt_bound_up; lra).
  assert (Q3 : 1 / sqrt 3 = sqrt 3 / 3).
  { pose proof (sqrt_sqrt 3 ltac:(lra)) as Q. field_simplify_eq; [|lra]. replace (sqrt 3 ^ 2) with (sqrt 3 * sqrt 3) by ring. lra. }
  assert (I6 : inv (PI / 6) = sqrt 3 / 3 - PI / 6) by (unfold inv; rewrite tan_PI6, Q3; ring).
  destruct (sharp_searches 4 (PI / 6) (PI / 16) ltac:(lra) ltac:(lra) ltac:(lra) ltac:(lra)) as (ts & rs & x0 & SV & TF & RS & Z & EV & X & EX).
  assert (A3 : 0 < flank_angle 4 (PI / 6) (PI / 16) (4 * sqrt 3)).
  { unfold flank_angle. replace (4 * cos (PI / 6) / (4 * sqrt 3)) with (1 / 2) by (rewrite C; field; lra). rewrite <- cos_PI3, Rmin_right by apply COS_bound.
    rewrite acos_cos by lra. unfold inv at 1. rewrite tan_PI3. lra. }
  assert (LT : rs < 4 * sqrt 3).
  { destruct (Rlt_dec rs (4 * sqrt 3)) as [G|G]; [exact G|exfalso].
    destruct (flank_angle_mono 4 (PI / 6) (PI / 16) (4 * sqrt 3) rs ltac:(lra) ltac:(rewrite C; lra) ltac:(lra) ltac:(lra)) as (M & _). lra. }
  destruct (C120_tip (meets_at x0) ts 4 (PI / 6) (PI / 16) 3 1 2 (1 / 10) rs) as (ha' & E & F & _); try assumption; try lra.
  - apply (sharp_sound _ x0 4 (PI / 6) (PI / 16) rs X EX Z).
  - exists (meets_at x0), ts, rs, ha'. split; [exact E|]. split; [exact Z|]. split; [exact LT|].
    rewrite F by (exists (1 / 10), x0; split; [left; reflexivity|reflexivity]). rewrite Rmin_right by lra. lra.
Qed.
Example C120_part_example : exists fs ts, forall sv mid optC optS,
  build_part sv fs ts mid optC optS (as_hgear (default_spur 40 1 ORIGIN 0 1 0)) =
  build_part sv fs ts mid optC optS (as_hgear (ig_new (mkIP 40 1 0 0 ORIGIN 0 1 false 0 0 0 0 1 (6 / 5) (20 * PI / 180) 0 0 false 0))).
Proof.
  destruct C120_default_untouched_example as (fs & ts & UN & _ & _ & CG). exists fs, ts. intros sv mid optC optS.
  rewrite (C120_part sv fs ts mid optC optS (as_hgear (default_spur 40 1 ORIGIN 0 1 0)) 40 CG); [|cbn [as_hgear h_gear]; rewrite (df_normal 40 1 ORIGIN 0 1 0 ltac:(lia)); reflexivity|exact UN].
  change (hbare (as_hgear (default_spur 40 1 ORIGIN 0 1 0))) with (as_hgear (bare (default_spur 40 1 ORIGIN 0 1 0))). unfold default_spur. rewrite <- C120_constructor. reflexivity.
Qed.
