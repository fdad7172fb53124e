(** Properties C10 (slices from the reference line), C86 and C87: the reference-curve recipe and
    the placement of core gears. *)
From Coq Require Import Nsatz Reals Lra Psatz Lia ZArith List Bool.
From Verif Require Import Num Vec Transform TransformProps Params ParamsProps Coords CoordsProps
  GearMath GearLem Curve ArcProps MeshAngleProps Tooth Wrapper MeshProps BevelProps Recipe.
Import ListNotations.
Open Scope R_scope.

(** ** Lemmas *)
Lemma DELTA_pos : 0 < DELTA. Proof. unfold DELTA. lra. Qed.

Lemma roundZ_bound x : Rabs (x - IZR (roundZ x)) <= 1 / 2.
Proof.
  unfold roundZ. pose proof (floorZ_bound x) as F. cbn zeta.
  destruct (Rlt_dec _ _) as [A|A].
  - apply Rabs_le. lra.
  - destruct (Rlt_dec (1 / 2) _) as [B|B].
    + rewrite plus_IZR. apply Rabs_le. lra.
    + destruct (Z.even _); rewrite ?plus_IZR; apply Rabs_le; lra.
Qed.

Lemma sqrt_sq_abs x : sqrt (x * x + 0 * 0) = Rabs x.
Proof. replace (x * x + 0 * 0) with (Rsqr x) by (unfold Rsqr; ring). apply sqrt_Rsqr_abs. Qed.

Lemma arctan2_0 x : 0 <= x -> arctan2 0 x = 0.
Proof.
  intros H. unfold arctan2. destruct (Rlt_dec 0 x) as [P|P].
  - unfold Rdiv. rewrite Rmult_0_l. apply atan_0.
  - destruct (Rlt_dec x 0); [lra|]. destruct (Rlt_dec 0 0); lra.
Qed.
Lemma arctan2_0_neg x : x < 0 -> arctan2 0 x = PI.
Proof.
  intros H. unfold arctan2. destruct (Rlt_dec 0 x) as [P|P]; [lra|].
  destruct (Rlt_dec x 0); [|lra]. destruct (Rle_dec 0 0); [|lra].
  unfold Rdiv. rewrite Rmult_0_l, atan_0. ring.
Qed.

(** The reference line of Gear.__init__, as coordinates. *)
Lemma gear_line N g L t :
  gear_ref_curve N g L t = V (N / 2 - t * L * sin g) 0 (t * L * cos g).
Proof.
  unfold gear_ref_curve. rewrite line_eval. unfold gear_p1, gear_p0, roty.
  rewrite cos_neg, sin_neg. apply vec_eq; vec_simpl; field.
Qed.

Lemma cylindrical_planar x z : xyz_to_cylindrical (V x 0 z) ORIGIN = V (Rabs x) (arctan2 0 x) z.
Proof.
  unfold xyz_to_cylindrical. rewrite vsub_0_r. cbn [vx vy vz]. rewrite sqrt_sq_abs. reflexivity.
Qed.

(** ** C10 *)

(** Slices up to the apex are the slices of the default recipe. *)
Theorem C10_curve_slice c z :
  0 < num_teeth (cg_teeth c) -> cg_height c <> 0 ->
  z * sin (cg_gamma c) <= num_teeth (cg_teeth c) / 2 ->
  cg_slice c z = default_slice (num_teeth (cg_teeth c)) (2 * cg_gamma c) z.
Proof.
  intros HN HL HZ. unfold cg_slice, curve_slice, default_slice, ref_curve_2_param, kp_center, gear_scaler.
  set (N := num_teeth _) in *. set (g := cg_gamma c) in *. set (L := cg_height c) in *.
  cbn [kp_h kp_radius kp_angle]. rewrite gear_line, cylindrical_planar. cbn [vx vy vz smul OUT].
  replace (z / L * L) with z by (field; exact HL). replace (2 * g / 2) with g by field.
  rewrite Rabs_right by lra. rewrite arctan2_0 by lra.
  f_equal; [apply vec_eq; vec_simpl; ring|]. field. lra.
Qed.

(** Beyond the apex the scale stays positive and the slice is turned by half a turn instead; planar
    profiles land where the default recipe puts them. *)
Theorem C10_curve_slice_beyond c z p :
  0 < num_teeth (cg_teeth c) -> cg_height c <> 0 ->
  num_teeth (cg_teeth c) / 2 < z * sin (cg_gamma c) -> vz p = 0 ->
  apply_gear_transform p (cg_slice c z) =
  apply_gear_transform p (default_slice (num_teeth (cg_teeth c)) (2 * cg_gamma c) z).
Proof.
  intros HN HL HZ HP.
  unfold cg_slice, curve_slice, default_slice, ref_curve_2_param, kp_center, gear_scaler.
  set (N := num_teeth _) in *. set (g := cg_gamma c) in *. set (L := cg_height c) in *.
  cbn [kp_h kp_radius kp_angle]. rewrite gear_line, cylindrical_planar. cbn [vx vy vz smul OUT].
  replace (z / L * L) with z by (field; exact HL). replace (2 * g / 2) with g by field.
  rewrite Rabs_left by lra. rewrite arctan2_0_neg by lra.
  rewrite !apply_gear_transform_eq. cbn [g_scale g_orient g_center g_angle].
  unfold rotz. rewrite cos_PI, sin_PI, cos_0, sin_0.
  destruct p as [x y w]. cbn [vz] in HP. subst w. clear HZ.
  apply vec_eq; vec_simpl; field; lra.
Qed.

(** The slope the recipe measures on the reference line. *)
Lemma gear_line_gamma N g L t : 0 < L -> - PI < g <= PI ->
  0 <= N / 2 - (t + DELTA) * L * sin g -> 0 <= N / 2 - (t - DELTA) * L * sin g ->
  kp_gamma (ref_curve_2_param t (gear_ref_curve N g L)) = g.
Proof.
  intros HL Hg H1 H2. unfold ref_curve_2_param. cbn [kp_gamma].
  rewrite !gear_line, !cylindrical_planar. cbn [vx vy vz vsub].
  rewrite !Rabs_right by lra. pose proof DELTA_pos.
  rewrite <- (arctan2_polar (2 * DELTA * L) g) at 5; [|nra|exact Hg].
  f_equal; ring.
Qed.

(** The cone angle of a slice: the user's, rounded to a multiple of 2e-6 rad (and exactly 0 for
    a cylinder). *)
Theorem C10_curve_cone c z :
  0 < cg_height c -> - PI < cg_gamma c <= PI ->
  (z + DELTA * cg_height c) * sin (cg_gamma c) <= num_teeth (cg_teeth c) / 2 ->
  (z - DELTA * cg_height c) * sin (cg_gamma c) <= num_teeth (cg_teeth c) / 2 ->
  Rabs (cg_cone_angle c z - 2 * cg_gamma c) <= DELTA /\
  (cg_cone_angle c z = 2 * cg_gamma c <-> exists k : Z, cg_gamma c = IZR k * DELTA) /\
  (exists k : Z, cg_cone_angle c z = IZR k * (2 * DELTA)).
Proof.
  intros HL Hg H1 H2. unfold cg_cone_angle. pose proof DELTA_pos as D.
  destruct (Req_EM_T (cg_gamma c) 0) as [E|E].
  - rewrite E. split; [|split].
    + replace (0 - 2 * 0) with 0 by ring. rewrite Rabs_R0. lra.
    + split; [|intros; ring]. intros _. exists 0%Z. ring.
    + exists 0%Z. ring.
  - unfold curve_cone_angle. destruct (Req_EM_T DELTA 0) as [E0|_]; [lra|].
    set (N := num_teeth _) in *. set (g := cg_gamma c) in *. set (L := cg_height c) in *.
    unfold gear_scaler. rewrite gear_line_gamma; [|exact HL|exact Hg|..].
    2:{ replace ((z / L + DELTA) * L) with (z + DELTA * L) by (field; lra). lra. }
    2:{ replace ((z / L - DELTA) * L) with (z - DELTA * L) by (field; lra). lra. }
    pose proof (roundZ_bound (g / DELTA)) as B. set (k := roundZ (g / DELTA)) in *.
    assert (G : g = g / DELTA * DELTA) by (field; lra).
    split; [|split].
    + replace (IZR k * DELTA * 2 - 2 * g) with (- (2 * DELTA) * (g / DELTA - IZR k)) by (field; lra).
      rewrite Rabs_mult, Rabs_Ropp, (Rabs_right (2 * DELTA)) by lra.
      apply Rle_trans with (2 * DELTA * (1 / 2)); [apply Rmult_le_compat_l; lra|lra].
    + split.
      * intros X. exists k. lra.
      * intros (j & X). assert (Q : g / DELTA = IZR j) by (rewrite X; field; lra).
        unfold k. rewrite Q, roundZ_IZR. lra.
    + exists k. ring.
Qed.

(** When the half angle is such a multiple (in particular 0), the cones along the gear are those of
    the default recipe, so the apex is fixed and the other C10 theorems hold of them. *)
Theorem C10_curve_cone_at_z c z (k : Z) :
  cg_gamma c = IZR k * DELTA ->
  0 < num_teeth (cg_teeth c) -> 0 < cg_height c -> - PI < cg_gamma c <= PI ->
  (z + DELTA * cg_height c) * sin (cg_gamma c) <= num_teeth (cg_teeth c) / 2 ->
  (z - DELTA * cg_height c) * sin (cg_gamma c) <= num_teeth (cg_teeth c) / 2 ->
  cg_cone_at_z c z = cone_at_z (cg_trf c) (num_teeth (cg_teeth c)) (2 * cg_gamma c) z.
Proof.
  intros Hk HN HL Hg H1 H2. unfold cg_cone_at_z, cone_at_z.
  rewrite C10_curve_slice by lra. f_equal.
  apply (C10_curve_cone c z); try assumption. exists k. exact Hk.
Qed.

(** Otherwise the apex drifts along the axis from slice to slice. *)
Theorem C10_curve_apex_refuted c z1 z2 :
  0 < num_teeth (cg_teeth c) -> 0 < cg_height c ->
  DELTA <= cg_gamma c < PI / 2 - DELTA -> ~ (exists k : Z, cg_gamma c = IZR k * DELTA) ->
  g_orient (cg_trf c) = UNIT3X3 -> g_scale (cg_trf c) <> 0 ->
  (forall z, z = z1 \/ z = z2 ->
     (z + DELTA * cg_height c) * sin (cg_gamma c) <= num_teeth (cg_teeth c) / 2) ->
  z1 <> z2 -> c_center (cg_cone_at_z c z1) <> c_center (cg_cone_at_z c z2).
Proof.
  intros HN HL Hg NK HO HS HZ HD EQ. pose proof DELTA_pos as D. pose proof PI_RGT_0 as PP.
  set (N := num_teeth (cg_teeth c)) in *. set (g := cg_gamma c) in *. set (L := cg_height c) in *.
  assert (SG : 0 < sin g) by (apply sin_gt_0; lra).
  assert (CA : exists g', 0 < g' < PI / 2 /\ g' <> g /\
                forall z, z = z1 \/ z = z2 -> cg_cone_angle c z = 2 * g').
  { exists (cg_cone_angle c z1 / 2).
    assert (B : forall z, z = z1 \/ z = z2 ->
        cg_cone_angle c z = IZR (roundZ (g / DELTA)) * DELTA * 2).
    { intros z Hz. specialize (HZ z Hz). unfold cg_cone_angle. fold g.
      destruct (Req_EM_T g 0); [lra|].
      unfold curve_cone_angle. destruct (Req_EM_T DELTA 0) as [E0|_]; [lra|]. fold N g L.
      assert (0 < DELTA * L * sin g) by (apply Rmult_lt_0_compat; [apply Rmult_lt_0_compat; lra|lra]).
      unfold gear_scaler. rewrite gear_line_gamma; [reflexivity|exact HL|lra|..].
      - replace ((z / L + DELTA) * L) with (z + DELTA * L) by (field; lra). lra.
      - replace ((z / L - DELTA) * L) with (z - DELTA * L) by (field; lra). lra. }
    assert (Z1 : (z1 - DELTA * L) * sin g <= N / 2).
    { assert (0 < DELTA * L * sin g) by (apply Rmult_lt_0_compat; [apply Rmult_lt_0_compat; lra|lra]).
      specialize (HZ z1 (or_introl eq_refl)). lra. }
    destruct (C10_curve_cone c z1 HL ltac:(fold g; lra) (HZ z1 (or_introl eq_refl)) Z1) as (A1 & A2 & _).
    fold g in A1, A2. split.
    { pose proof (Rle_abs (cg_cone_angle c z1 - 2 * g)) as R1.
      pose proof (Rle_abs (- (cg_cone_angle c z1 - 2 * g))) as R2. rewrite Rabs_Ropp in R2. lra. }
    split.
    { intros E. apply NK, A2. lra. }
    intros z Hz. rewrite (B z Hz), (B z1 (or_introl eq_refl)). field. }
  destruct CA as (g' & HG' & NG & CA).
  assert (ZL : forall z, z = z1 \/ z = z2 -> z * sin g <= N / 2).
  { intros z Hz. specialize (HZ z Hz).
    assert (0 < DELTA * L * sin g) by (apply Rmult_lt_0_compat; [apply Rmult_lt_0_compat; lra|lra]). lra. }
  assert (SG' : 0 < sin g') by (apply sin_gt_0; lra).
  assert (CG' : 0 < cos g') by (apply cos_gt_0; lra).
  assert (VZ : forall z, z = z1 \/ z = z2 ->
     vz (c_center (cg_cone_at_z c z)) = vz (g_center (cg_trf c)) +
       g_scale (cg_trf c) * ((N / 2 - z * sin g) * cos g' / sin g' + z * cos g)).
  { intros z Hz. unfold cg_cone_at_z. rewrite (CA z Hz), (C10_curve_slice c z HN (Rgt_not_eq _ _ HL) (ZL z Hz)).
    fold N g. unfold c_center, gamma, apply_transform. cbn [cone_angle base_radius c_trf g_base t_scale t_orient t_center g_mul g_scale g_orient g_center default_slice].
    rewrite HO. replace (2 * g' / 2) with g' by field. replace (2 * g / 2) with g by field.
    unfold tan. cbn [vadd vz]. set (s := g_scale (cg_trf c)). set (a := g_angle (cg_trf c)).
    set (ce := vz (g_center (cg_trf c))). vec_simpl. field. lra. }
  assert (E := f_equal vz EQ). rewrite (VZ z1 (or_introl eq_refl)), (VZ z2 (or_intror eq_refl)) in E.
  assert (E2 : g_scale (cg_trf c) * ((z1 - z2) * (sin (g' - g) / sin g')) = 0).
  { rewrite sin_minus.
    replace ((sin g' * cos g - cos g' * sin g) / sin g') with (cos g - sin g * cos g' / sin g') by (field; lra).
    transitivity (g_scale (cg_trf c) * ((N / 2 - z1 * sin g) * cos g' / sin g' + z1 * cos g) -
                  g_scale (cg_trf c) * ((N / 2 - z2 * sin g) * cos g' / sin g' + z2 * cos g)); [field; lra|].
    lra. }
  apply Rmult_integral in E2. destruct E2 as [E2|E2]; [contradiction|].
  apply Rmult_integral in E2. destruct E2 as [E2|E2]; [lra|].
  assert (SD : sin (g' - g) = 0).
  { apply (Rmult_eq_reg_r (/ sin g')); [|apply Rinv_neq_0_compat; lra]. unfold Rdiv in E2. lra. }
  destruct (Rtotal_order g' g) as [LT|[EQ'|GT]]; [|contradiction|].
  - assert (0 < sin (g - g')) by (apply sin_gt_0; lra).
    replace (g' - g) with (- (g - g')) in SD by ring. rewrite sin_neg in SD. lra.
  - assert (0 < sin (g' - g)) by (apply sin_gt_0; lra). lra.
Qed.

(** A gear with 20 teeth, half angle 1/3 rad and height 5. *)
Definition ex_cg : cgear := cg_make (mkTP 20 0 false) 1 (1 / 3) 5.
Lemma PI_gt_2 : 2 < PI.
Proof. pose proof PI2_1. lra. Qed.
Lemma third_not_multiple : ~ (exists k : Z, 1 / 3 = IZR k * DELTA).
Proof.
  intros (k & E). unfold DELTA in E.
  assert (3 * IZR k = 1000000) by lra.
  rewrite <- mult_IZR in H. apply eq_IZR in H. lia.
Qed.
Example C10_curve_example :
  cg_slice ex_cg 2 = default_slice 20 (2 * (1 / 3)) 2 /\
  Rabs (cg_cone_angle ex_cg 0 - 2 * (1 / 3)) <= DELTA /\
  c_center (cg_cone_at_z ex_cg 0) <> c_center (cg_cone_at_z ex_cg 5).
Proof.
  pose proof PI_gt_2. pose proof PI_4. pose proof (SIN_bound (1 / 3)).
  assert (S : 0 < sin (1 / 3)) by (apply sin_gt_0; lra).
  assert (D : DELTA < 1 / 100) by (unfold DELTA; lra). pose proof DELTA_pos.
  assert (Q : forall z, 0 <= z <= 6 -> z * sin (1 / 3) <= 20 / 2).
  { intros z Hz. apply Rle_trans with (6 * 1); [apply Rmult_le_compat; lra|lra]. }
  split; [|split].
  - apply (C10_curve_slice ex_cg 2); cbn; [lra|lra|apply Q; lra].
  - apply (C10_curve_cone ex_cg 0); cbn; [lra|lra|apply Q; lra|].
    assert (0 < DELTA * 5 * sin (1 / 3)) by (apply Rmult_lt_0_compat; lra). lra.
  - apply (C10_curve_apex_refuted ex_cg 0 5); cbn; try lra.
    + exact third_not_multiple.
    + reflexivity.
    + intros z [-> | ->]; apply Q; lra.
Qed.

(** ** C86 *)

(** The pitch point of the tooth (on the x axis, at the pitch radius of the recipe) is carried
    exactly to the reference curve by every slice, whatever the curve. *)
Theorem C86_follows_curve N f scaler z : N <> 0 ->
  apply_gear_transform (smul (N / 2) RIGHT) (curve_slice N f scaler z) = f (scaler z).
Proof.
  intros HN. rewrite apply_gear_transform_eq.
  rewrite <- (C11_cylindrical_round_trip (f (scaler z)) ORIGIN) at 1.
  unfold curve_slice, ref_curve_2_param, kp_center. cbn [g_scale g_orient g_center g_angle kp_h kp_radius kp_angle].
  unfold cylindrical_to_xyz. set (q := xyz_to_cylindrical _ _). clearbody q.
  unfold rotz. set (ca := cos (vy q)). set (sa := sin (vy q)). clearbody ca sa.
  destruct q as [r ph h]. apply vec_eq; vec_simpl; field; exact HN.
Qed.

(** A slice is planar and similar to the profile: all its points are at the height of the curve
    point, and distances from the axis are multiplied by (radius of the curve) / (pitch radius). *)
Theorem C86_slice_shape N f scaler z p : 0 < N -> vz p = 0 ->
  let q := apply_gear_transform p (curve_slice N f scaler z) in
  vz q = vz (f (scaler z)) /\
  norm (V (vx q) (vy q) 0) =
  norm (V (vx (f (scaler z))) (vy (f (scaler z))) 0) / (N / 2) * norm p.
Proof.
  intros HN HP q. unfold q. rewrite apply_gear_transform_eq.
  unfold curve_slice, ref_curve_2_param, kp_center. cbn [g_scale g_orient g_center g_angle kp_h kp_radius kp_angle].
  unfold xyz_to_cylindrical. rewrite vsub_0_r. set (w := f (scaler z)). cbn [vx vy vz smul OUT].
  set (r := sqrt _).
  assert (NR : norm (V (vx w) (vy w) 0) = r).
  { unfold norm, r. f_equal. vec_simpl. ring. }
  assert (R0 : 0 <= r) by apply sqrt_pos.
  rewrite NR. set (a := arctan2 _ _). clearbody r a. destruct p as [x y t]. cbn [vz] in HP. subst t.
  split; [destruct w; vec_simpl; ring|].
  apply norm_eq.
  - apply Rmult_le_pos; [|apply norm_nonneg]. apply Rmult_le_pos; [exact R0|].
    left. apply Rinv_0_lt_compat. lra.
  - transitivity (r / (N / 2) * (r / (N / 2)) * (norm (V x y 0) * norm (V x y 0))); [|ring].
    rewrite norm_sqr. unfold rotz. pose proof (sc1 a) as S. set (ca := cos a) in *. set (sa := sin a) in *.
    clearbody ca sa. set (k := r / (N / 2)). clearbody k. clear NR. destruct w. vec_simpl.
    transitivity (k * k * ((x * x + y * y) * (sa * sa + ca * ca))); [ring|rewrite S; ring].
Qed.

(** The cone of the slice opens along the curve: in the (radius, height) half plane the chord
    from t - DELTA to t + DELTA approaches the axis at the half angle (before rounding). *)
Theorem C86_cone_along_curve f scaler z :
  let cyl t := xyz_to_cylindrical (f t) ORIGIN in
  let t := scaler z in
  let dr := vx (cyl (t + DELTA)) - vx (cyl (t - DELTA)) in
  let dh := vz (cyl (t + DELTA)) - vz (cyl (t - DELTA)) in
  let g := curve_cone_angle 0 f scaler z / 2 in
  dr = - (sqrt (dr * dr + dh * dh) * sin g) /\ dh = sqrt (dr * dr + dh * dh) * cos g /\
  (forall d, 0 < d -> Rabs (curve_cone_angle d f scaler z - 2 * g) <= d) /\
  (dr = 0 -> 0 < dh -> forall d, curve_cone_angle d f scaler z = 0).
Proof.
  intros cyl t dr dh g.
  assert (GK : kp_gamma (ref_curve_2_param t f) = g).
  { unfold g, curve_cone_angle. destruct (Req_EM_T 0 0) as [_|E]; [|lra]. fold t. field. }
  assert (G : g = arctan2 (- dr) dh) by (rewrite <- GK; reflexivity).
  destruct (arctan2_cos_sin (- dr) dh) as [PC PS].
  replace (dh * dh + - dr * - dr) with (dr * dr + dh * dh) in * by ring. rewrite <- G in PC, PS.
  split; [lra|]. split; [lra|].
  assert (CR : forall d, d <> 0 -> curve_cone_angle d f scaler z = IZR (roundZ (g / d)) * d * 2).
  { intros d Hd. unfold curve_cone_angle. destruct (Req_EM_T d 0); [contradiction|]. fold t. rewrite GK. reflexivity. }
  split.
  - intros d Hd. rewrite CR by lra. pose proof (roundZ_bound (g / d)) as B. set (k := roundZ _) in *.
    replace (IZR k * d * 2 - 2 * g) with (- (2 * d) * (g / d - IZR k)) by (field; lra).
    rewrite Rabs_mult, Rabs_Ropp, (Rabs_right (2 * d)) by lra.
    apply Rle_trans with (2 * d * (1 / 2)); [apply Rmult_le_compat_l; lra|lra].
  - intros R0 HH d. assert (G0 : g = 0) by (rewrite G, R0, Ropp_0; apply arctan2_0; lra).
    destruct (Req_dec d 0) as [->|Hd].
    + unfold curve_cone_angle. destruct (Req_EM_T 0 0) as [_|E]; [|lra]. fold t. rewrite GK, G0. ring.
    + rewrite CR by exact Hd. rewrite G0. unfold Rdiv. rewrite Rmult_0_l.
      change 0 with (IZR 0) at 1. rewrite roundZ_IZR. ring.
Qed.

(** A helix of radius 10 and rise 5 per radian gives a 20-tooth helical gear: the pitch point runs
    along the helix, the slices keep their size, the cone angle is 0. *)
Definition ex_helix (t : R) : vec := V (10 * cos t) (10 * sin t) (5 * t).
Lemma helix_cyl t : vx (xyz_to_cylindrical (ex_helix t) ORIGIN) = 10 /\
                    vz (xyz_to_cylindrical (ex_helix t) ORIGIN) = 5 * t.
Proof.
  unfold xyz_to_cylindrical, ex_helix. rewrite vsub_0_r. cbn [vx vy vz]. split; [|reflexivity].
  replace (10 * cos t * (10 * cos t) + 10 * sin t * (10 * sin t)) with (10 * 10)
    by (pose proof (sc1 t); nra). apply sqrt_square. lra.
Qed.
Example C86_example t :
  apply_gear_transform (smul (20 / 2) RIGHT) (curve_slice 20 ex_helix (fun z => z / 5) t) = ex_helix (t / 5) /\
  g_scale (curve_slice 20 ex_helix (fun z => z / 5) t) = 1 /\
  curve_cone_angle DELTA ex_helix (fun z => z / 5) t = 0.
Proof.
  split; [apply (C86_follows_curve 20 ex_helix (fun z => z / 5) t); lra|]. split.
  - unfold curve_slice, ref_curve_2_param. cbn [g_scale kp_radius].
    rewrite (proj1 (helix_cyl (t / 5))). field.
  - pose proof DELTA_pos.
    destruct (helix_cyl (t / 5 + DELTA)) as [A1 A2]. destruct (helix_cyl (t / 5 - DELTA)) as [B1 B2].
    apply (C86_cone_along_curve ex_helix (fun z => z / 5) t); cbn beta.
    + rewrite A1, B1. ring.
    + rewrite A2, B2. lra.
Qed.

(** ** C87 *)

(** A core gear with [n] teeth, placed anywhere, the scale of its transform being the module. *)
Record placed (c : cgear) (n : Z) : Prop := {
  pl_teeth : num_teeth (cg_teeth c) = IZR n;
  pl_n : (0 < n)%Z;
  pl_module : 0 < cg_module c;
  pl_orient : orthogonal (g_orient (cg_trf c));
  pl_scale : g_scale (cg_trf c) = cg_module c }.

(** Pitch radius, distance of the axes and place of the pitch cone's apex (half angle [gam]). *)
Definition sp_rp (c : cgear) : R := cg_module c * num_teeth (cg_teeth c) / 2.
Definition axis_distance (c o : cgear) : R :=
  norm (project_plane (vsub (g_center (cg_trf c)) (g_center (cg_trf o))) (g_z_axis (cg_trf o))).
Definition nominal (c o : cgear) : R :=
  if orb (inside_teeth (cg_teeth c)) (inside_teeth (cg_teeth o)) then Rabs (sp_rp c - sp_rp o)
  else sp_rp c + sp_rp o.
Definition sp_apex (c : cgear) (gam : R) : vec :=
  vadd (g_center (cg_trf c)) (smul (sp_rp c * cos gam / sin gam) (g_z_axis (cg_trf c))).

Lemma norm_project_smul k v z : norm (project_plane (smul k v) z) = Rabs k * norm (project_plane v z).
Proof.
  rewrite <- norm_smul. f_equal. unfold project_plane. destruct v, z. vec_ring.
Qed.

Lemma planar_result c o t : cg_gamma c = 0 -> cg_gamma o = 0 ->
  exists c', cg_mesh_to c o t = Ok c' /\
    cg_teeth c' = cg_teeth c /\ cg_module c' = cg_module c /\ cg_gamma c' = cg_gamma c /\
    cg_height c' = cg_height c /\ g_scale (cg_trf c') = g_scale (cg_trf c) /\
    g_orient (cg_trf c') = g_orient (cg_trf o) /\
    g_center (cg_trf c') = vadd (smul (nominal c o) t) (g_center (cg_trf o)) /\
    g_angle (cg_trf c') = calc_mesh_angle (cg_trf c') (cg_trf o) (tp_pitch_angle (cg_teeth c))
      (tp_pitch_angle (cg_teeth o)) (inside_teeth (cg_teeth c)) (inside_teeth (cg_teeth o)).
Proof.
  intros G1 G2. unfold cg_mesh_to.
  assert (A1 : cg_cone_angle c 0 = 0) by (unfold cg_cone_angle; rewrite G1; destruct (Req_EM_T 0 0); lra).
  assert (A2 : cg_cone_angle o 0 = 0) by (unfold cg_cone_angle; rewrite G2; destruct (Req_EM_T 0 0); lra).
  rewrite A1, A2. destruct (Req_EM_T 0 0) as [_|E]; [|lra].
  eexists. split; [reflexivity|]. cbn [cg_turn cg_place cg_with cg_teeth cg_module cg_gamma cg_height cg_trf g_scale g_orient g_center g_angle].
  repeat (split; [reflexivity|]). split; [|reflexivity].
  f_equal. f_equal. unfold nominal, cg_rp, sp_rp.
  destruct (orb _ _); [f_equal|]; field.
Qed.

(** Cylindrical gears: parallel axes; the axes are the nominal distance apart exactly when the
    component of the direction across the axis has length 1. *)
Theorem C87_axis_distance c o t n1 n2 : placed c n1 -> placed o n2 ->
  cg_gamma c = 0 -> cg_gamma o = 0 ->
  exists c', cg_mesh_to c o t = Ok c' /\ placed c' n1 /\
    g_z_axis (cg_trf c') = g_z_axis (cg_trf o) /\
    axis_distance c' o = nominal c o * norm (project_plane t (g_z_axis (cg_trf o))) /\
    (nominal c o <> 0 ->
     (axis_distance c' o = nominal c o <-> norm (project_plane t (g_z_axis (cg_trf o))) = 1)).
Proof.
  intros P1 P2 G1 G2. destruct (planar_result c o t G1 G2) as (c' & HM & HT & HMo & _ & _ & HS & HO & HC & _).
  exists c'. split; [exact HM|]. split.
  { constructor; rewrite ?HT, ?HMo, ?HS, ?HO; try apply P1. apply P2. }
  split; [unfold g_z_axis; rewrite HO; reflexivity|].
  assert (R1 : 0 < sp_rp c).
  { unfold sp_rp. rewrite (pl_teeth _ _ P1). pose proof (pl_module _ _ P1). pose proof (IZR_pos _ (pl_n _ _ P1)).
    apply Rdiv_lt_0_compat; [apply Rmult_lt_0_compat; assumption|lra]. }
  assert (R2 : 0 < sp_rp o).
  { unfold sp_rp. rewrite (pl_teeth _ _ P2). pose proof (pl_module _ _ P2). pose proof (IZR_pos _ (pl_n _ _ P2)).
    apply Rdiv_lt_0_compat; [apply Rmult_lt_0_compat; assumption|lra]. }
  assert (N0 : 0 <= nominal c o) by (unfold nominal; destruct (orb _ _); [apply Rabs_pos|lra]).
  assert (AD : axis_distance c' o = nominal c o * norm (project_plane t (g_z_axis (cg_trf o)))).
  { unfold axis_distance. rewrite HC.
    replace (vsub (vadd (smul (nominal c o) t) (g_center (cg_trf o))) (g_center (cg_trf o)))
      with (smul (nominal c o) t) by (rewrite vsub_vadd; reflexivity).
    rewrite norm_project_smul, Rabs_right by lra. reflexivity. }
  split; [exact AD|]. intros NZ. rewrite AD. split.
  - intros E. apply (Rmult_eq_reg_l (nominal c o)); [lra|exact NZ].
  - intros ->. ring.
Qed.

Lemma nominal_pos c o n1 n2 : placed c n1 -> placed o n2 ->
  inside_teeth (cg_teeth c) = false -> inside_teeth (cg_teeth o) = false -> 0 < nominal c o.
Proof.
  intros P1 P2 I1 I2. unfold nominal, sp_rp. rewrite I1, I2. cbn [orb].
  rewrite (pl_teeth _ _ P1), (pl_teeth _ _ P2).
  assert (0 < cg_module c * IZR n1) by (apply Rmult_lt_0_compat; [apply P1|apply IZR_pos, P1]).
  assert (0 < cg_module o * IZR n2) by (apply Rmult_lt_0_compat; [apply P2|apply IZR_pos, P2]). lra.
Qed.

(** A direction that is not a unit vector puts the gears at the wrong distance. *)
Corollary C87_direction_not_normalised_refuted c o n1 n2 k : placed c n1 -> placed o n2 ->
  cg_gamma c = 0 -> cg_gamma o = 0 ->
  inside_teeth (cg_teeth c) = false -> inside_teeth (cg_teeth o) = false ->
  g_orient (cg_trf o) = UNIT3X3 -> 0 < k ->
  exists c', cg_mesh_to c o (smul k RIGHT) = Ok c' /\ axis_distance c' o = k * (sp_rp c + sp_rp o).
Proof.
  intros P1 P2 G1 G2 I1 I2 HO Hk.
  destruct (C87_axis_distance c o (smul k RIGHT) n1 n2 P1 P2 G1 G2) as (c' & HM & _ & _ & AD & _).
  exists c'. split; [exact HM|]. rewrite AD, norm_project_smul, Rabs_right by lra.
  unfold nominal. rewrite I1, I2. cbn [orb].
  replace (norm (project_plane RIGHT (g_z_axis (cg_trf o)))) with 1; [ring|].
  symmetry. apply norm_unit. unfold g_z_axis. rewrite HO. unfold project_plane. vec_simpl. ring.
Qed.

(** Teeth point into gaps, at every moment of the rolling motion. *)
Theorem C87_tooth_meets_gap c o t n1 n2 : placed c n1 -> placed o n2 ->
  cg_gamma c = 0 -> cg_gamma o = 0 ->
  inside_teeth (cg_teeth c) = false -> inside_teeth (cg_teeth o) = false ->
  / 10 ^ 12 <= nominal c o * norm t -> project_plane t (g_z_axis (cg_trf o)) <> ORIGIN ->
  exists c', cg_mesh_to c o t = Ok c' /\
    let T1 := cg_trf c' in let T2 := cg_trf o in
    forall x, tooth_at (turned T1 n1 x) n1 (vopp t) <-> gap_at (turned T2 n2 (- x)) n2 t.
Proof.
  intros P1 P2 G1 G2 I1 I2 HD HT.
  destruct (planar_result c o t G1 G2) as (c' & HM & TT & HMo & _ & _ & HS & HO & HC & HA).
  exists c'. split; [exact HM|]. intros T1 T2 x.
  pose proof (nominal_pos c o n1 n2 P1 P2 I1 I2) as NP.
  assert (CL : centre_line T1 T2 = smul (nominal c o) (vopp t)).
  { unfold centre_line, T1, T2. rewrite HC. set (w := g_center (cg_trf o)).
    assert (E : vsub w (vadd (smul (nominal c o) t) w) = smul (nominal c o) (vopp t)).
    { set (k := nominal c o). clearbody w k. clear. destruct t, w. vec_ring. }
    rewrite E, norm_smul, norm_vopp, Rabs_right by lra.
    destruct (Rlt_dec _ _); [lra|reflexivity]. }
  assert (PO : forall k z, project_plane (smul k (vopp t)) z = smul (- k) (project_plane t z)).
  { intros. unfold project_plane. clear. destruct t, z. vec_ring. }
  assert (NZ : forall k z, k <> 0 -> z = g_z_axis (cg_trf o) -> smul k (project_plane t z) <> ORIGIN).
  { intros k z Hk -> E. apply HT. rewrite <- (smul_1 (project_plane _ _)).
    replace 1 with (/ k * k) by (field; exact Hk). rewrite <- smul_smul, E. apply smul_ORIGIN. }
  assert (Z1 : g_z_axis T1 = g_z_axis (cg_trf o)) by (unfold T1, g_z_axis; rewrite HO; reflexivity).
  assert (B1 : orthogonal (g_orient T1)) by (unfold T1; rewrite HO; apply P2).
  pose proof (C44_tooth_meets_gap T1 T2 n1 n2 (pl_n _ _ P1) (pl_n _ _ P2) B1 (pl_orient _ _ P2)) as Q.
  cbn zeta in Q. rewrite CL in Q.
  assert (O1 : off_axis (smul (nominal c o) (vopp t)) T1).
  { unfold off_axis. rewrite PO. apply NZ; [lra|exact Z1]. }
  assert (O2 : off_axis (vopp (smul (nominal c o) (vopp t))) T2).
  { unfold off_axis. replace (vopp (smul (nominal c o) (vopp t))) with (smul (- nominal c o) (vopp t))
      by (generalize (nominal c o); clear; intros k; destruct t; vec_ring).
    rewrite PO. apply NZ; [lra|reflexivity]. }
  specialize (Q O1 O2 x).
  unfold tp_pitch_angle in HA. rewrite (pl_teeth _ _ P1), (pl_teeth _ _ P2), I1, I2 in HA.
  fold T1 T2 in HA. rewrite <- HA in Q.
  assert (T1E : at_angle T1 (g_angle T1) = T1) by (destruct T1; reflexivity). rewrite T1E in Q.
  rewrite (proj1 (tooth_at_dir (turned T1 n1 x) n1 (vopp t) (smul (nominal c o) (vopp t)) (/ nominal c o)
             (Rinv_0_lt_compat _ NP) ltac:(
      replace (project_plane (smul (nominal c o) (vopp t)) (g_z_axis (turned T1 n1 x)))
        with (smul (nominal c o) (project_plane (vopp t) (g_z_axis (turned T1 n1 x))))
        by (unfold project_plane; generalize (g_z_axis (turned T1 n1 x)) (nominal c o); clear;
            intros z k; destruct t, z; vec_ring);
      rewrite smul_smul, Rinv_l, smul_1 by lra; reflexivity))).
  rewrite Q.
  apply (tooth_at_dir (turned T2 n2 (- x)) n2 _ t (nominal c o) NP).
  unfold project_plane. generalize (g_z_axis (turned T2 n2 (- x))) (nominal c o). clear.
  intros z k. destruct t, z. vec_ring.
Qed.

(** Ring meshes: the teeth of the pinion point to the spaces of the ring (which sit at the tooth
    positions of the ring), on the side where the pitch circles touch. *)
Theorem C87_ring_mesh c o t n1 n2 : placed c n1 -> placed o n2 ->
  cg_gamma c = 0 -> cg_gamma o = 0 ->
  orb (inside_teeth (cg_teeth c)) (inside_teeth (cg_teeth o)) = true ->
  / 10 ^ 12 <= nominal c o * norm t -> project_plane t (g_z_axis (cg_trf o)) <> ORIGIN ->
  exists c', cg_mesh_to c o t = Ok c' /\
    let T1 := cg_trf c' in let T2 := cg_trf o in
    let d := if inside_teeth (cg_teeth c) then vopp t else t in
    forall x, tooth_at (turned T1 n1 x) n1 d <-> tooth_at (turned T2 n2 x) n2 d.
Proof.
  intros P1 P2 G1 G2 RR HD HT.
  destruct (planar_result c o t G1 G2) as (c' & HM & TT & HMo & _ & _ & HS & HO & HC & HA).
  exists c'. split; [exact HM|]. intros T1 T2 d x.
  assert (NP : 0 < nominal c o).
  { assert (0 < / 10 ^ 12) by (apply Rinv_0_lt_compat; lra).
    assert (N0 : 0 <= nominal c o) by (unfold nominal; rewrite RR; apply Rabs_pos).
    pose proof (norm_nonneg t). nra. }
  set (r1 := inside_teeth (cg_teeth c)) in *. set (r2 := inside_teeth (cg_teeth o)) in *.
  assert (CL : centre_line T1 T2 = smul (nominal c o) (vopp t)).
  { unfold centre_line, T1, T2. rewrite HC. set (w := g_center (cg_trf o)).
    assert (E : vsub w (vadd (smul (nominal c o) t) w) = smul (nominal c o) (vopp t)).
    { set (k := nominal c o). clearbody w k. clear. destruct t, w. vec_ring. }
    rewrite E, norm_smul, norm_vopp, Rabs_right by lra.
    destruct (Rlt_dec _ _); [lra|reflexivity]. }
  set (k := nominal c o) in *.
  assert (DD : (if r1 then centre_line T1 T2 else vopp (centre_line T1 T2)) = smul k d).
  { rewrite CL. unfold d. destruct r1; [reflexivity|]. generalize k. clear. intros k. destruct t. vec_ring. }
  assert (Z1 : g_z_axis T1 = g_z_axis (cg_trf o)) by (unfold T1, g_z_axis; rewrite HO; reflexivity).
  assert (PK : forall z, project_plane (smul k d) z = smul k (project_plane d z)).
  { intros z. generalize k d. clear. intros k d. unfold project_plane. destruct d, z. vec_ring. }
  assert (OD : project_plane (smul k d) (g_z_axis (cg_trf o)) <> ORIGIN).
  { intros E. apply HT. rewrite PK in E.
    assert (E2 : project_plane d (g_z_axis (cg_trf o)) = ORIGIN).
    { rewrite <- (smul_1 (project_plane d _)). replace 1 with (/ k * k) by (field; lra).
      rewrite <- smul_smul, E. apply smul_ORIGIN. }
    unfold d in E2. destruct r1; [|exact E2].
    replace t with (vopp (vopp t)) by (clear; destruct t; vec_ring).
    replace (project_plane (vopp (vopp t)) (g_z_axis (cg_trf o)))
      with (vopp (project_plane (vopp t) (g_z_axis (cg_trf o))))
      by (generalize (g_z_axis (cg_trf o)); clear; intros z; unfold project_plane; destruct t, z; vec_ring).
    rewrite E2. vec_ring. }
  assert (B1 : orthogonal (g_orient T1)) by (unfold T1; rewrite HO; apply P2).
  pose proof (C44_ring_mesh T1 T2 n1 n2 r1 r2 RR (pl_n _ _ P1) (pl_n _ _ P2) B1 (pl_orient _ _ P2)) as Q.
  cbn zeta in Q. rewrite DD in Q.
  specialize (Q ltac:(unfold off_axis; rewrite Z1; exact OD) OD x).
  unfold tp_pitch_angle in HA. rewrite (pl_teeth _ _ P1), (pl_teeth _ _ P2) in HA.
  fold T1 T2 in HA. rewrite <- HA in Q.
  assert (T1E : at_angle T1 (g_angle T1) = T1) by (destruct T1; reflexivity). rewrite T1E in Q.
  rewrite <- (proj1 (tooth_at_dir (turned T1 n1 x) n1 (smul k d) d k NP (PK _))).
  rewrite Q. apply (tooth_at_dir (turned T2 n2 x) n2 (smul k d) d k NP (PK _)).
Qed.

(** Bevel gears: the place found for the gear does not depend on where the other gear is. *)
Theorem C87_bevel_ignores_other_place_refuted c o t T c1 c2 :
  cg_cone_angle c 0 <> 0 \/ cg_cone_angle o 0 <> 0 ->
  cg_mesh_to c o t = Ok c1 -> cg_mesh_to c (cg_with o T) t = Ok c2 ->
  g_center (cg_trf c1) = g_center (cg_trf c2).
Proof.
  intros HB. unfold cg_mesh_to. cbn [cg_with cg_teeth].
  change (cg_cone_angle (cg_with o T) 0) with (cg_cone_angle o 0).
  change (cg_cone (cg_with o T)) with (cg_cone o).
  destruct (bevel_placement _ _ _ _ _ _) as [v0|e] eqn:EV.
  2:{ cbn [bind]. destruct (Req_EM_T (cg_cone_angle c 0) 0); [destruct (Req_EM_T (cg_cone_angle o 0) 0)|];
      try discriminate. tauto. }
  cbn [bind].
  set (R1 := calc_mesh_orientation _ _ _ (cg_trf o) _ _ _ _).
  set (R2 := calc_mesh_orientation _ _ _ (cg_trf (cg_with o T)) _ _ _ _).
  assert (G : forall (A : res mat) f (c' : cgear),
     (forall m, g_center (cg_trf (f m)) = v0) -> bind A (fun m => Ok (f m)) = Ok c' -> g_center (cg_trf c') = v0).
  { intros A f c' HF E. destruct A as [m|e]; [|discriminate]. cbn [bind] in E. injection E as <-. apply HF. }
  intros H1 H2. transitivity v0.
  - destruct (Req_EM_T (cg_cone_angle c 0) 0); [destruct (Req_EM_T (cg_cone_angle o 0) 0); [tauto|]|];
      (eapply G; [|exact H1]; intros; reflexivity).
  - symmetry. destruct (Req_EM_T (cg_cone_angle c 0) 0); [destruct (Req_EM_T (cg_cone_angle o 0) 0); [tauto|]|];
      (eapply G; [|exact H2]; intros; reflexivity).
Qed.

Lemma bevel_result c o t n1 n2 g1 g2 : placed c n1 -> placed o n2 ->
  cg_cone_angle c 0 = 2 * g1 -> cg_cone_angle o 0 = 2 * g2 -> 0 < g1 < PI -> 0 < g2 < PI ->
  g_orient (cg_trf o) = UNIT3X3 -> / 10 ^ 12 <= norm (project_plane t OUT) ->
  let th := shaft_angle (inside_teeth (cg_teeth c)) (inside_teeth (cg_teeth o)) g1 g2 in
  let u := normalize (project_plane t OUT) in
  exists c', cg_mesh_to c o t = Ok c' /\ placed c' n1 /\
    cg_teeth c' = cg_teeth c /\ cg_module c' = cg_module c /\
    dot u u = 1 /\ dot u OUT = 0 /\
    g_z_axis (cg_trf c') = vsub (smul (cos th) OUT) (smul (sin th) u) /\
    g_center (cg_trf c') = vadd (smul (IZR n2 / 2 * cos g2 / sin g2) OUT)
       (smul (- (IZR n1 / 2 * cos g1 / sin g1)) (g_z_axis (cg_trf c'))).
Proof.
  intros P1 P2 A1 A2 B1 B2 HO HT th u.
  assert (T12 : 0 < / 10 ^ 12) by (apply Rinv_0_lt_compat; lra).
  set (l := norm (project_plane t OUT)) in *.
  assert (UU : dot u u = 1) by (apply normalize_unit; fold l; lra).
  assert (UZ : dot u OUT = 0).
  { unfold u, normalize. rewrite dot_smul_l. replace (dot (project_plane t OUT) OUT) with 0; [ring|].
    unfold project_plane. clear. destruct t. vec_simpl. ring. }
  assert (ZZ : dot OUT OUT = 1) by (vec_simpl; ring).
  assert (PE : project_plane t OUT = smul l u).
  { unfold u, normalize. fold l. rewrite smul_smul, Rinv_r by lra. symmetry. apply smul_1. }
  assert (AX : norm (cross u OUT) = 1) by (apply norm_unit, cross_unit; assumption).
  assert (S1 : 0 < sin g1) by (apply sin_gt_0; lra). assert (S2 : 0 < sin g2) by (apply sin_gt_0; lra).
  assert (N1 : 0 < IZR n1) by (apply IZR_pos, P1).
  unfold cg_mesh_to. rewrite A1, A2. destruct (Req_EM_T (2 * g1) 0) as [E|_]; [lra|].
  unfold bevel_placement, cg_cone. rewrite A1, A2, (pl_teeth _ _ P1), (pl_teeth _ _ P2).
  unfold gamma, c_R, c_center. cbn [cone_angle base_radius c_trf t_default t_scale].
  replace (2 * g1 / 2) with g1 by field. replace (2 * g2 / 2) with g2 by field.
  unfold gamma. cbn [cone_angle]. replace (2 * g1 / 2) with g1 by field. replace (2 * g2 / 2) with g2 by field.
  destruct (Req_EM_T (sin g1) 0) as [E|_]; [lra|]. destruct (Req_EM_T (sin g2) 0) as [E|_]; [lra|].
  change (t_z_axis t_default) with OUT.
  rewrite <- (cross_project t OUT), PE.
  replace (cross (smul l u) OUT) with (smul l (cross u OUT)) by (clear; generalize l u; intros; vec_ring).
  assert (L0 : 0 < l) by lra.
  rewrite (normalize_r_pos l _ L0 AX). cbn [bind].
  unfold calc_mesh_orientation. replace (g_z_axis (cg_trf o)) with OUT by (unfold g_z_axis; rewrite HO; reflexivity).
  rewrite HO. fold l.
  destruct (Rlt_dec l (/ 10 ^ 12)) as [E|_]; [lra|].
  destruct (Req_EM_T (2 * g1) 0) as [E|_]; [lra|].
  rewrite PE, normalize_smul by (assumption || apply norm_unit; assumption).
  rewrite (normalize_r_unit _ AX). cbn [bind].
  replace (2 * g1 / 2) with g1 by field. replace (2 * g2 / 2) with g2 by field.
  set (r1 := inside_teeth (cg_teeth c)) in *. set (r2 := inside_teeth (cg_teeth o)) in *.
  assert (AR : forall R0, angle_ref g1 g2 R0 r1 r2 0 = th).
  { intros. unfold angle_ref, th, shaft_angle. destruct r1, r2; cbn [orb]; unfold Rdiv; ring. }
  rewrite !AR, from_rotvec_axis by exact AX. rewrite mmul_I_r.
  eexists. split; [reflexivity|].
  set (Rm := rodrigues (cross u OUT) th).
  assert (TZ : col3 Rm = vsub (smul (cos th) OUT) (smul (sin th) u)).
  { rewrite <- (turn_z u OUT th UU ZZ UZ). fold Rm. clearbody Rm. clear. vec_ring. }
  split.
  { constructor; cbn [cg_turn cg_place cg_with cg_teeth cg_module cg_trf g_orient g_scale]; try apply P1.
    apply rotation_rodrigues, AX. }
  cbn [cg_turn cg_place cg_with cg_teeth cg_module cg_trf g_orient g_center g_z_axis].
  split; [reflexivity|]. split; [reflexivity|]. split; [exact UU|]. split; [exact UZ|].
  unfold g_z_axis. cbn [g_orient]. split; [exact TZ|].
  assert (MZ : mapp Rm OUT = col3 Rm) by (clearbody Rm; clear; vec_ring).
  rewrite mapp_smul, MZ. f_equal.
  - unfold apply_transform. cbn [t_scale t_orient t_center t_default]. rewrite vmat_mtrans, mapp_I, vadd_0_r, smul_1, smul_smul.
    f_equal. unfold tan. destruct (Req_dec (cos g2) 0) as [E|E].
    + rewrite E. unfold Rdiv. rewrite Rinv_0, !Rmult_0_r, Rinv_0. ring.
    + field. split; [lra|exact E].
  - f_equal. rewrite Rabs_right.
    + field. lra.
    + apply Rle_ge. left. apply Rmult_lt_0_compat; [|lra]. apply Rdiv_lt_0_compat; lra.
Qed.

(** Bevel gears, the other gear upright: the pitch cones share their apex exactly when the other
    gear sits where this equation says; [h1], [h2] are the heights of the cones of module 1. *)
Theorem C87_bevel_apex_iff c o t n1 n2 g1 g2 : placed c n1 -> placed o n2 ->
  cg_cone_angle c 0 = 2 * g1 -> cg_cone_angle o 0 = 2 * g2 -> 0 < g1 < PI -> 0 < g2 < PI ->
  g_orient (cg_trf o) = UNIT3X3 -> / 10 ^ 12 <= norm (project_plane t OUT) ->
  let h1 := IZR n1 / 2 * cos g1 / sin g1 in let h2 := IZR n2 / 2 * cos g2 / sin g2 in
  exists c', cg_mesh_to c o t = Ok c' /\
    dot (g_z_axis (cg_trf c')) OUT =
      cos (shaft_angle (inside_teeth (cg_teeth c)) (inside_teeth (cg_teeth o)) g1 g2) /\
    (sp_apex c' g1 = sp_apex o g2 <->
     g_center (cg_trf o) = vadd (smul ((1 - cg_module o) * h2) OUT)
                             (smul ((cg_module c - 1) * h1) (g_z_axis (cg_trf c')))).
Proof.
  intros P1 P2 A1 A2 B1 B2 HO HT h1 h2.
  destruct (bevel_result c o t n1 n2 g1 g2 P1 P2 A1 A2 B1 B2 HO HT) as (c' & HM & P1' & TE & ME & UU & UZ & ZE & CE).
  exists c'. split; [exact HM|]. split.
  { rewrite ZE, dot_vsub_l, !dot_smul_l, UZ. replace (dot OUT OUT) with 1 by (vec_simpl; ring). ring. }
  assert (S1 : 0 < sin g1) by (apply sin_gt_0; lra). assert (S2 : 0 < sin g2) by (apply sin_gt_0; lra).
  unfold sp_apex. rewrite CE. fold h1 h2. set (z := g_z_axis (cg_trf c')). clearbody z. clear CE.
  replace (g_z_axis (cg_trf o)) with OUT by (unfold g_z_axis; rewrite HO; reflexivity).
  replace (sp_rp c' * cos g1 / sin g1) with (cg_module c * h1)
    by (unfold sp_rp, h1; rewrite TE, ME, (pl_teeth _ _ P1); field; lra).
  replace (sp_rp o * cos g2 / sin g2) with (cg_module o * h2)
    by (unfold sp_rp, h2; rewrite (pl_teeth _ _ P2); field; lra).
  set (m1 := cg_module c). set (m2 := cg_module o). set (w := g_center (cg_trf o)).
  clearbody m1 m2 w h1 h2. clear. destruct w as [w1 w2 w3], z as [z1 z2 z3].
  split; intros E; assert (X := f_equal vx E); assert (Y := f_equal vy E); assert (Z := f_equal vz E);
    vec_simpl; apply vec_eq; vec_simpl; lra.
Qed.

(** With module 1 and the other gear at the origin the apexes meet, at any other place they do not. *)
Corollary C87_bevel_unit_module c o t n1 n2 g1 g2 : placed c n1 -> placed o n2 ->
  cg_cone_angle c 0 = 2 * g1 -> cg_cone_angle o 0 = 2 * g2 -> 0 < g1 < PI -> 0 < g2 < PI ->
  g_orient (cg_trf o) = UNIT3X3 -> / 10 ^ 12 <= norm (project_plane t OUT) ->
  cg_module c = 1 -> cg_module o = 1 ->
  exists c', cg_mesh_to c o t = Ok c' /\
    (sp_apex c' g1 = sp_apex o g2 <-> g_center (cg_trf o) = ORIGIN).
Proof.
  intros P1 P2 A1 A2 B1 B2 HO HT M1 M2.
  destruct (C87_bevel_apex_iff c o t n1 n2 g1 g2 P1 P2 A1 A2 B1 B2 HO HT) as (c' & HM & _ & E).
  exists c'. split; [exact HM|]. rewrite E, M1, M2.
  set (z := g_z_axis (cg_trf c')).
  replace (vadd (smul ((1 - 1) * _) OUT) (smul ((1 - 1) * _) z)) with ORIGIN; [reflexivity|].
  set (h1 := IZR n1 / 2 * cos g1 / sin g1). set (h2 := IZR n2 / 2 * cos g2 / sin g2).
  clearbody z h1 h2. clear. vec_ring.
Qed.

(** With any other common module the apexes of two freshly made (external, acute) bevel gears
    never meet. *)
Corollary C87_bevel_module_refuted c o t n1 n2 g1 g2 : placed c n1 -> placed o n2 ->
  cg_cone_angle c 0 = 2 * g1 -> cg_cone_angle o 0 = 2 * g2 -> 0 < g1 < PI / 2 -> 0 < g2 < PI / 2 ->
  inside_teeth (cg_teeth c) = false -> inside_teeth (cg_teeth o) = false ->
  g_orient (cg_trf o) = UNIT3X3 -> g_center (cg_trf o) = ORIGIN -> / 10 ^ 12 <= norm (project_plane t OUT) ->
  cg_module c = cg_module o -> cg_module o <> 1 ->
  exists c', cg_mesh_to c o t = Ok c' /\ sp_apex c' g1 <> sp_apex o g2.
Proof.
  intros P1 P2 A1 A2 B1 B2 I1 I2 HO HC HT MM M2.
  destruct (C87_bevel_apex_iff c o t n1 n2 g1 g2 P1 P2 A1 A2 ltac:(lra) ltac:(lra) HO HT) as (c' & HM & DZ & E).
  exists c'. split; [exact HM|]. rewrite E, HC, MM. intros X.
  rewrite I1, I2 in DZ. unfold shaft_angle in DZ. cbn [orb] in DZ.
  assert (S1 : 0 < sin g1) by (apply sin_gt_0; lra). assert (S2 : 0 < sin g2) by (apply sin_gt_0; lra).
  assert (C1 : 0 < cos g1) by (apply cos_gt_0; lra). assert (C2 : 0 < cos g2) by (apply cos_gt_0; lra).
  assert (N1 : 0 < IZR n1) by (apply IZR_pos, P1). assert (N2 : 0 < IZR n2) by (apply IZR_pos, P2).
  set (h1 := IZR n1 / 2 * cos g1 / sin g1) in *. set (h2 := IZR n2 / 2 * cos g2 / sin g2) in *.
  assert (H1 : 0 < h1) by (apply Rdiv_lt_0_compat; [apply Rmult_lt_0_compat|]; lra).
  assert (H2 : 0 < h2) by (apply Rdiv_lt_0_compat; [apply Rmult_lt_0_compat|]; lra).
  destruct (bevel_result c o t n1 n2 g1 g2 P1 P2 A1 A2 ltac:(lra) ltac:(lra) HO HT) as (c2 & HM2 & P2' & _ & _ & UU & UZ & ZE & _).
  rewrite HM in HM2. injection HM2 as <-.
  set (z := g_z_axis (cg_trf c')) in *. set (m := cg_module o) in *.
  (* h1 z = h2 OUT *)
  assert (X2 : smul h1 z = smul h2 OUT).
  { assert (V1 := f_equal vx X). assert (V2 := f_equal vy X). assert (V3 := f_equal vz X).
    clearbody z h1 h2 m. destruct z as [a b d]. vec_simpl.
    apply vec_eq; vec_simpl; apply (Rmult_eq_reg_l (m - 1)); lra. }
  assert (ZU : dot z z = 1) by (apply col3_unit, P2').
  assert (D1 : h1 * dot z OUT = h2).
  { rewrite <- dot_smul_l, X2. vec_simpl. ring. }
  assert (D2 : h1 * h1 = h2 * h2).
  { transitivity (dot (smul h1 z) (smul h1 z)); [rewrite dot_smul_l, dot_smul_r, ZU; ring|].
    rewrite X2. vec_simpl. ring. }
  assert (EQ : h1 = h2) by nra.
  rewrite DZ, EQ in D1. assert (C : cos (g1 + g2) = 1) by (apply (Rmult_eq_reg_l h2); lra).
  assert (cos (g1 + g2) < cos 0) by (apply cos_decreasing_1; lra). rewrite cos_0 in H. lra.
Qed.

(** Two gears of 20 and 30 teeth, module 2, in the default position. *)
Definition ex_c : cgear := cg_make (mkTP 20 0 false) 2 0 5.
Definition ex_o : cgear := cg_make (mkTP 30 0 false) 2 0 5.
Lemma cg_make_placed n cut inside m g L : (0 < n)%Z -> 0 < m ->
  placed (cg_make (mkTP (IZR n) cut inside) m g L) n.
Proof. intros. constructor; try assumption; try reflexivity. apply rotation_I. Qed.
Example C87_example :
  (exists c', cg_mesh_to ex_c ex_o RIGHT = Ok c' /\ axis_distance c' ex_o = 50) /\
  (exists c', cg_mesh_to ex_c ex_o (smul 3 RIGHT) = Ok c' /\ axis_distance c' ex_o = 150).
Proof.
  assert (P1 : placed ex_c 20) by (apply cg_make_placed; [lia|lra]).
  assert (P2 : placed ex_o 30) by (apply cg_make_placed; [lia|lra]).
  split.
  - destruct (C87_direction_not_normalised_refuted ex_c ex_o 20 30 1 P1 P2) as (c' & HM & AD); try reflexivity; [lra|].
    exists c'. rewrite smul_1 in HM. split; [exact HM|]. rewrite AD. unfold sp_rp. cbn. lra.
  - destruct (C87_direction_not_normalised_refuted ex_c ex_o 20 30 3 P1 P2) as (c' & HM & AD); try reflexivity; [lra|].
    exists c'. split; [exact HM|]. rewrite AD. unfold sp_rp. cbn. lra.
Qed.
(** The bevel hypotheses are met by the 20-tooth gear of half angle 1/3 (rounded by the recipe). *)
Example C87_bevel_example : exists g1, 0 < g1 < PI / 2 /\ cg_cone_angle ex_cg 0 = 2 * g1 /\
  exists c', cg_mesh_to ex_cg ex_cg RIGHT = Ok c' /\ sp_apex c' g1 = sp_apex ex_cg g1.
Proof.
  pose proof PI_gt_2. pose proof DELTA_pos. pose proof (SIN_bound (1 / 3)).
  assert (D : DELTA < 1 / 100) by (unfold DELTA; lra).
  assert (S : 0 < sin (1 / 3)) by (apply sin_gt_0; lra).
  destruct (C10_curve_cone ex_cg 0) as (B & _ & _); cbn; [lra|lra|..].
  { apply Rle_trans with (1 * 1); [apply Rmult_le_compat; lra|lra]. }
  { assert (0 < DELTA * 5 * sin (1 / 3)) by (apply Rmult_lt_0_compat; lra). lra. }
  cbn in B.
  exists (cg_cone_angle ex_cg 0 / 2).
  assert (G : 0 < cg_cone_angle ex_cg 0 / 2 < PI / 2).
  { pose proof (Rle_abs (cg_cone_angle ex_cg 0 - 2 * (1 / 3))) as R1.
    pose proof (Rle_abs (- (cg_cone_angle ex_cg 0 - 2 * (1 / 3)))) as R2. rewrite Rabs_Ropp in R2. lra. }
  split; [exact G|]. assert (AE : cg_cone_angle ex_cg 0 = 2 * (cg_cone_angle ex_cg 0 / 2)) by field.
  split; [exact AE|].
  assert (P1 : placed ex_cg 20) by (apply cg_make_placed; [lia|lra]).
  destruct (C87_bevel_unit_module ex_cg ex_cg RIGHT 20 20 _ _ P1 P1 AE AE) as (c' & HM & E); try reflexivity; try lra.
  - replace (norm (project_plane RIGHT OUT)) with 1.
    + assert (/ 10 ^ 12 <= / 1) by (apply Rinv_le_contravar; lra). lra.
    + symmetry. apply norm_unit. unfold project_plane. vec_simpl. ring.
  - exists c'. split; [exact HM|]. apply E. reflexivity.
Qed.
