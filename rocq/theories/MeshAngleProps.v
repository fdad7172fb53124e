(** Property C44: the mesh angle puts teeth into gaps. *)
From Coq Require Import Nsatz Reals Lra Psatz Lia ZArith.
From Verif Require Import Num Vec Transform TransformProps Params Coords GearMath GearLem.
Open Scope R_scope.

(** ** Specification *)

(** In the plane of the gear placed by [T], the direction at angle [a] (in the gear's frame) is
    the direction of [d]. *)
Definition points_at (T : gtransform) (a : R) (d : vec) : Prop :=
  exists l, 0 < l /\ project_plane d (g_z_axis T) = smul l (dir (g_orient T) a).
(** Teeth are at the multiples of the pitch from the gear's angle, gaps half-way between. *)
Definition tooth_at (T : gtransform) (n : Z) (d : vec) : Prop :=
  exists k : Z, points_at T (g_angle T + IZR k * (2 * PI / IZR n)) d.
Definition gap_at (T : gtransform) (n : Z) (d : vec) : Prop :=
  exists k : Z, points_at T (g_angle T + (IZR k + 1 / 2) * (2 * PI / IZR n)) d.
(** The gear turned by [x] pitches about its axis. *)
Definition turned (T : gtransform) (n : Z) (x : R) : gtransform :=
  mkG (g_center T) (g_orient T) (g_scale T) (g_angle T + x * (2 * PI / IZR n)).
Definition at_angle (T : gtransform) (a : R) : gtransform :=
  mkG (g_center T) (g_orient T) (g_scale T) a.
(** The line of centres, from gear 1 to gear 2 (co-axial gears: x axis of gear 2). *)
Definition centre_line (T1 T2 : gtransform) : vec :=
  let d := vsub (g_center T2) (g_center T1) in
  if Rlt_dec (norm d) (/ 10 ^ 12) then g_x_axis T2 else d.
(** [d] is not parallel to the axis of the gear. *)
Definition off_axis (d : vec) (T : gtransform) : Prop := project_plane d (g_z_axis T) <> ORIGIN.

(** ** Lemmas *)

Lemma col3_unit O : orthogonal O -> dot (col3 O) (col3 O) = 1.
Proof.
  intros H. replace (col3 O) with (mapp O OUT) by vec_ring. rewrite orthogonal_dot by exact H.
  vec_simpl. ring.
Qed.

Lemma project_in_plane O d : orthogonal O -> dot (project_plane d (col3 O)) (col3 O) = 0.
Proof.
  intros H. unfold project_plane. rewrite dot_vsub_l, dot_smul_l, col3_unit by exact H. ring.
Qed.

Lemma angle_xy_project O d : orthogonal O ->
  angle_xy (vmat (project_plane d (col3 O)) O) = angle_xy (vmat d O).
Proof.
  intros H. unfold orthogonal in H. unfold angle_xy, project_plane.
  assert (X : forall k, vx (vmat (vsub d (smul k (col3 O))) O) = vx (vmat d O) - k * m13 (mmul (mtrans O) O))
    by (intros; vec_ring).
  assert (Y : forall k, vy (vmat (vsub d (smul k (col3 O))) O) = vy (vmat d O) - k * m23 (mmul (mtrans O) O))
    by (intros; vec_ring).
  rewrite X, Y, H. cbn [UNIT3X3 m13 m23]. f_equal; ring.
Qed.

Lemma project_dir O d : orthogonal O ->
  project_plane d (col3 O) =
  smul (norm (project_plane d (col3 O))) (dir O (angle_xy (vmat d O))).
Proof.
  intros H. rewrite <- (angle_xy_project O d H). apply dir_of_plane; [exact H|].
  apply project_in_plane, H.
Qed.

Lemma points_at_iff T a d : orthogonal (g_orient T) -> off_axis d T ->
  (points_at T a d <-> exists j : Z, a = angle_xy (vmat d (g_orient T)) + 2 * IZR j * PI).
Proof.
  intros HO HN. set (O := g_orient T) in *. set (th := angle_xy (vmat d O)).
  pose proof (norm_pos _ HN) as P. change (g_z_axis T) with (col3 O) in P.
  split.
  - intros (l & Hl & E). change (g_z_axis T) with (col3 O) in E. fold O in E.
    rewrite (project_dir O d HO) in E. fold th in E.
    set (r := norm (project_plane d (col3 O))) in *.
    unfold dir in E. rewrite <- !mapp_smul in E.
    assert (E2 : smul r (V (cos th) (sin th) 0) = smul l (V (cos a) (sin a) 0)).
    { rewrite <- (orthogonal_inv_l O (smul r (V (cos th) (sin th) 0)) HO).
      rewrite E. apply orthogonal_inv_l, HO. }
    assert (X := f_equal vx E2). assert (Y := f_equal vy E2). cbn [smul vx vy] in X, Y.
    assert (RL : r = l).
    { pose proof (sc1 th) as S1. pose proof (sc1 a) as S2.
      assert (r * r = l * l); [|nra].
      replace (r * r) with ((r * cos th) * (r * cos th) + (r * sin th) * (r * sin th)) by
        (transitivity (r * r * (sin th * sin th + cos th * cos th)); [ring|rewrite S1; ring]).
      rewrite X, Y. transitivity (l * l * (sin a * sin a + cos a * cos a)); [ring|rewrite S2; ring]. }
    subst l. apply angle_mod; apply (Rmult_eq_reg_l r); lra.
  - intros (j & ->). exists (norm (project_plane d (col3 O))). split; [exact P|].
    rewrite dir_turn. apply project_dir, HO.
Qed.

Lemma IZR_pos n : (0 < n)%Z -> 0 < IZR n.
Proof. intros. apply (IZR_lt 0). assumption. Qed.

Lemma pitch_turn n j : (0 < n)%Z -> 2 * IZR j * PI = IZR (j * n) * (2 * PI / IZR n).
Proof. intros. pose proof (IZR_pos n H). rewrite mult_IZR. field. lra. Qed.

Lemma tooth_at_iff T n d : (0 < n)%Z -> orthogonal (g_orient T) -> off_axis d T ->
  (tooth_at T n d <-> exists k : Z,
     (g_angle T - angle_xy (vmat d (g_orient T))) / (2 * PI / IZR n) = IZR k).
Proof.
  intros Hn HO HN. pose proof (IZR_pos n Hn). pose proof PI_RGT_0.
  assert (P : 0 < 2 * PI / IZR n) by (apply Rdiv_lt_0_compat; lra).
  unfold tooth_at. set (p := 2 * PI / IZR n) in *. set (th := angle_xy _).
  split.
  - intros (k & Hk). apply points_at_iff in Hk; [|assumption..]. destruct Hk as (j & E).
    fold th in E. rewrite (pitch_turn n j Hn) in E. fold p in E. exists (j * n - k)%Z.
    rewrite minus_IZR. apply (Rmult_eq_reg_r p); [|lra].
    replace ((g_angle T - th) / p * p) with (g_angle T - th) by (field; lra). lra.
  - intros (k & Hk). exists (- k)%Z. apply points_at_iff; [assumption..|]. exists 0%Z. fold th.
    assert (g_angle T - th = IZR k * p) by (rewrite <- Hk; field; lra).
    rewrite opp_IZR. lra.
Qed.

Lemma gap_at_iff T n d : (0 < n)%Z -> orthogonal (g_orient T) -> off_axis d T ->
  (gap_at T n d <-> exists k : Z,
     (g_angle T - angle_xy (vmat d (g_orient T))) / (2 * PI / IZR n) = IZR k + 1 / 2).
Proof.
  intros Hn HO HN. pose proof (IZR_pos n Hn). pose proof PI_RGT_0.
  assert (P : 0 < 2 * PI / IZR n) by (apply Rdiv_lt_0_compat; lra).
  unfold gap_at. set (p := 2 * PI / IZR n) in *. set (th := angle_xy _).
  split.
  - intros (k & Hk). apply points_at_iff in Hk; [|assumption..]. destruct Hk as (j & E).
    fold th in E. rewrite (pitch_turn n j Hn) in E. fold p in E. exists (j * n - k - 1)%Z.
    rewrite !minus_IZR. apply (Rmult_eq_reg_r p); [|lra].
    replace ((g_angle T - th) / p * p) with (g_angle T - th) by (field; lra). lra.
  - intros (k & Hk). exists (- k - 1)%Z. apply points_at_iff; [assumption..|]. exists 0%Z. fold th.
    assert (g_angle T - th = (IZR k + 1 / 2) * p) by (rewrite <- Hk; field; lra).
    rewrite minus_IZR, opp_IZR. lra.
Qed.

(** Angles only see the direction. *)
Lemma angle_xy_pos k v O : 0 < k -> angle_xy (vmat (smul k v) O) = angle_xy (vmat v O).
Proof.
  intros Hk. unfold angle_xy, vmat. rewrite mapp_smul. cbn [smul vx vy]. apply arctan2_scale, Hk.
Qed.

Lemma center_diff_scale T1 T2 : exists k, 0 < k /\ center_diff_dir T1 T2 = smul k (centre_line T1 T2).
Proof.
  unfold center_diff_dir, centre_line. cbn zeta. destruct (Rlt_dec _ _) as [L|L].
  - exists 1. split; [lra|]. symmetry. apply smul_1.
  - exists (/ norm (vsub (g_center T2) (g_center T1))). split; [|reflexivity].
    apply Rinv_0_lt_compat. assert (0 < / 10 ^ 12) by (apply Rinv_0_lt_compat; lra). lra.
Qed.

Lemma turned_off d T n x : off_axis d T -> off_axis d (turned T n x).
Proof. intros H. exact H. Qed.

(** The phases as the code computes them. *)
Lemma calc_mesh_angle_phase T1 T2 p1 p2 (ring1 ring2 : bool) : 0 < p1 -> 0 < p2 ->
  let d := centre_line T1 T2 in
  let d1 := if ring1 then d else if ring2 then vopp d else d in
  let d2 := if ring1 then d else vopp d in
  let x1 := (calc_mesh_angle T1 T2 p1 p2 ring1 ring2 - angle_xy (vmat d1 (g_orient T1))) / p1 in
  let x2 := (g_angle T2 - angle_xy (vmat d2 (g_orient T2))) / p2 in
  0 <= x1 < 1 /\
  (orb ring1 ring2 = true -> exists m : Z, x1 = x2 + IZR m) /\
  (orb ring1 ring2 = false -> exists m : Z, x1 + x2 = 1 / 2 + IZR m).
Proof.
  intros P1 P2 d d1 d2 x1 x2.
  destruct (center_diff_scale T1 T2) as (k & Hk & E). fold d in E.
  assert (O : forall v, vopp (smul k v) = smul k (vopp v)) by (intros; vec_ring).
  assert (C1 : angle_xy (vmat (contact1 T1 T2 ring1 ring2) (g_orient T1)) =
               angle_xy (vmat d1 (g_orient T1))).
  { unfold contact1, d1. rewrite E.
    destruct ring1, ring2; rewrite ?O; apply angle_xy_pos, Hk. }
  assert (C2 : angle_xy (vmat (contact2 T1 T2 ring1 ring2) (g_orient T2)) =
               angle_xy (vmat d2 (g_orient T2))).
  { unfold contact2, d2. rewrite E. destruct ring1; rewrite ?O; apply angle_xy_pos, Hk. }
  assert (X1 : x1 = frac ((if orb ring1 ring2 then 1 else -1) * frac x2 +
                          (if orb ring1 ring2 then 0 else / 2))).
  { unfold x1, calc_mesh_angle. rewrite C1, C2. fold x2. field. lra. }
  clearbody x1 x2. subst x1. split; [apply frac_bound|].
  destruct (frac_eq x2) as (m2 & E2). rewrite E2.
  split; intros B; rewrite B.
  - destruct (frac_eq (1 * (x2 + IZR m2) + 0)) as (m1 & E1). rewrite E1.
    exists (m2 + m1)%Z. rewrite plus_IZR. ring.
  - destruct (frac_eq (-1 * (x2 + IZR m2) + / 2)) as (m1 & E1). rewrite E1.
    exists (m1 - m2)%Z. rewrite minus_IZR. field.
Qed.

Lemma turned_phase T n x th : (0 < n)%Z ->
  (g_angle (turned T n x) - th) / (2 * PI / IZR n) = (g_angle T - th) / (2 * PI / IZR n) + x.
Proof.
  intros Hn. pose proof (IZR_pos n Hn). pose proof PI_RGT_0. cbn [turned g_angle]. field. lra.
Qed.

(** ** Theorems *)

(** External gears: at every moment of the rolling motion, a tooth of gear 1 points to gear 2
    exactly when a gap of gear 2 points to gear 1. *)
Theorem C44_tooth_meets_gap T1 T2 n1 n2 :
  (0 < n1)%Z -> (0 < n2)%Z -> orthogonal (g_orient T1) -> orthogonal (g_orient T2) ->
  let d := centre_line T1 T2 in
  off_axis d T1 -> off_axis (vopp d) T2 ->
  let T1' := at_angle T1 (calc_mesh_angle T1 T2 (2 * PI / IZR n1) (2 * PI / IZR n2) false false) in
  forall x, tooth_at (turned T1' n1 x) n1 d <-> gap_at (turned T2 n2 (- x)) n2 (vopp d).
Proof.
  intros Hn1 Hn2 HO1 HO2 d N1 N2 T1' x.
  pose proof PI_RGT_0. pose proof (IZR_pos _ Hn1). pose proof (IZR_pos _ Hn2).
  assert (P1 : 0 < 2 * PI / IZR n1) by (apply Rdiv_lt_0_compat; lra).
  assert (P2 : 0 < 2 * PI / IZR n2) by (apply Rdiv_lt_0_compat; lra).
  rewrite tooth_at_iff by assumption. rewrite gap_at_iff by assumption.
  rewrite !turned_phase by assumption.
  destruct (calc_mesh_angle_phase T1 T2 _ _ false false P1 P2) as (_ & _ & PH). fold d in PH.
  destruct (PH eq_refl) as (m & E). cbn [turned g_orient T1' at_angle g_angle].
  set (x1 := _ / (2 * PI / IZR n1)) in *. set (x2 := _ / (2 * PI / IZR n2)) in *.
  split; intros (k & Hk).
  - exists (m - k)%Z. rewrite minus_IZR. lra.
  - exists (m - k)%Z. rewrite minus_IZR. lra.
Qed.

(** Ring meshes: the teeth of the pinion point to the (like-numbered) spaces of the ring, which
    the library draws at the tooth positions of the ring; both turn in the same sense. *)
Theorem C44_ring_mesh T1 T2 n1 n2 (ring1 ring2 : bool) :
  orb ring1 ring2 = true ->
  (0 < n1)%Z -> (0 < n2)%Z -> orthogonal (g_orient T1) -> orthogonal (g_orient T2) ->
  let d := if ring1 then centre_line T1 T2 else vopp (centre_line T1 T2) in
  off_axis d T1 -> off_axis d T2 ->
  let T1' := at_angle T1 (calc_mesh_angle T1 T2 (2 * PI / IZR n1) (2 * PI / IZR n2) ring1 ring2) in
  forall x, tooth_at (turned T1' n1 x) n1 d <-> tooth_at (turned T2 n2 x) n2 d.
Proof.
  intros HR Hn1 Hn2 HO1 HO2 d N1 N2 T1' x.
  pose proof PI_RGT_0. pose proof (IZR_pos _ Hn1). pose proof (IZR_pos _ Hn2).
  assert (P1 : 0 < 2 * PI / IZR n1) by (apply Rdiv_lt_0_compat; lra).
  assert (P2 : 0 < 2 * PI / IZR n2) by (apply Rdiv_lt_0_compat; lra).
  rewrite tooth_at_iff by assumption. rewrite tooth_at_iff by assumption.
  rewrite !turned_phase by assumption.
  destruct (calc_mesh_angle_phase T1 T2 _ _ ring1 ring2 P1 P2) as (_ & PH & _).
  destruct (PH HR) as (m & E). cbn [turned g_orient T1' at_angle g_angle].
  replace (if ring1 then centre_line T1 T2 else if ring2 then vopp (centre_line T1 T2) else centre_line T1 T2)
    with d in E by (unfold d; destruct ring1, ring2; try reflexivity; discriminate).
  replace (if ring1 then centre_line T1 T2 else vopp (centre_line T1 T2)) with d in E by reflexivity.
  set (x1 := _ / (2 * PI / IZR n1)) in *. set (x2 := _ / (2 * PI / IZR n2)) in *.
  split; intros (k & Hk).
  - exists (k - m)%Z. rewrite minus_IZR. lra.
  - exists (k + m)%Z. rewrite plus_IZR. lra.
Qed.

(** Turning gear 2 by whole pitches changes nothing. *)
Theorem C44_whole_pitches T1 T2 p1 n2 ring1 ring2 (k : Z) : (0 < n2)%Z ->
  calc_mesh_angle T1 (turned T2 n2 (IZR k)) p1 (2 * PI / IZR n2) ring1 ring2 =
  calc_mesh_angle T1 T2 p1 (2 * PI / IZR n2) ring1 ring2.
Proof.
  intros Hn. unfold calc_mesh_angle. cbn [turned g_orient g_angle].
  change (contact2 T1 (turned T2 n2 (IZR k)) ring1 ring2) with (contact2 T1 T2 ring1 ring2).
  change (contact1 T1 (turned T2 n2 (IZR k)) ring1 ring2) with (contact1 T1 T2 ring1 ring2).
  pose proof PI_RGT_0. pose proof (IZR_pos _ Hn).
  set (th := angle_xy (vmat (contact2 _ _ _ _) _)).
  replace ((g_angle T2 + IZR k * (2 * PI / IZR n2) - th) / (2 * PI / IZR n2))
    with ((g_angle T2 - th) / (2 * PI / IZR n2) + IZR k) by (field; lra).
  rewrite frac_add_IZR. reflexivity.
Qed.

(** The gear is turned by less than one pitch from the contact direction, and its own previous
    angle has no influence. *)
Theorem C44_within_one_pitch T1 T2 p1 p2 (ring1 ring2 : bool) : 0 < p1 -> 0 < p2 ->
  let d := centre_line T1 T2 in
  let d1 := if ring1 then d else if ring2 then vopp d else d in
  let target := angle_xy (vmat d1 (g_orient T1)) in
  target <= calc_mesh_angle T1 T2 p1 p2 ring1 ring2 < target + p1 /\
  forall a, calc_mesh_angle (at_angle T1 a) T2 p1 p2 ring1 ring2 =
            calc_mesh_angle T1 T2 p1 p2 ring1 ring2.
Proof.
  intros P1 P2 d d1 target.
  destruct (calc_mesh_angle_phase T1 T2 p1 p2 ring1 ring2 P1 P2) as (B & _).
  fold d in B. fold d1 in B. fold target in B. split; [|reflexivity].
  set (a := calc_mesh_angle _ _ _ _ _ _) in *.
  assert (a - target = (a - target) / p1 * p1) by (field; lra).
  set (x := (a - target) / p1) in *. nra.
Qed.

Example C44_example :
  let T1 := mkG (V 10 0 0) UNIT3X3 1 0 in let T2 := mkG ORIGIN UNIT3X3 1 0 in
  off_axis (centre_line T1 T2) T1 /\ off_axis (vopp (centre_line T1 T2)) T2 /\
  orthogonal UNIT3X3.
Proof.
  assert (E : centre_line (mkG (V 10 0 0) UNIT3X3 1 0) (mkG ORIGIN UNIT3X3 1 0) = V (-10) 0 0).
  { unfold centre_line. cbn [g_center]. destruct (Rlt_dec _ _) as [L|L].
    - exfalso. replace (vsub ORIGIN (V 10 0 0)) with (V (-10) 0 0) in L by vec_ring.
      assert (norm (V (-10) 0 0) = 10) by (apply norm_eq; [lra|vec_simpl; ring]).
      assert (/ 10 ^ 12 < 1) by lra. lra.
    - vec_ring. }
  intros T1 T2. unfold T1, T2. rewrite E. split; [|split].
  - intros X. apply (f_equal vx) in X. unfold project_plane, g_z_axis in X. cbn [g_orient] in X. clear E. vec_simpl. lra.
  - intros X. apply (f_equal vx) in X. unfold project_plane, g_z_axis in X. cbn [g_orient] in X. clear E. vec_simpl. lra.
  - apply rotation_I.
Qed.
