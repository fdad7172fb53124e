(** C124: what Gear.boundary_at_z gives. *)
From Coq Require Import Nsatz Reals ZArith Lra Lia List Bool Arith.
From Verif Require Import Num Vec Transform TransformProps Params ParamsProps Coords CoordsProps Gen GenProps Interp Curve CurveLem
  CurveProps ArcLem ArcProps Chain ChainLem ChainProps GearLem GearMath MeshProps MeshDistProps Tooth Wrapper Info HelicalProps RefLines RefLinesProps
  Profile ProfileLem ProfileProps Build BuildProps Fillet FilletProps FlankProps ReduceProps Teeth CrownRackProps RackConjProps
  UndercutProps Cycloid RisingLem ClimbLem Report ReportProps SpurProps ReliefProps OutlineProps RadiiProps Part PartProps CycPart CycPartProps Boundary.
Import ListNotations.
Open Scope R_scope.

(** ** Specification *)
(** The place, in the gear's coordinates, of the point [u] of tooth [i], before the section is moved to its height. *)
Definition tooth_pt (k : core) (p : profile) (i : Z) (u : R) : vec := turn (IZR i * (2 * PI / num_teeth (k_tooth k))) (n_point (pr_chain p) u).
(** Its place in space on the gear's section at the height [z] (module 1). *)
Definition section_pt (k : core) (p : profile) (z : R) (i : Z) (u : R) : vec := apply_gear_transform (apply_gear_transform (tooth_pt k p i u) (k_slice k z)) (k_trf k).
(** Height of a point over the plane through the gear's centre across its axis. *)
Definition height_over (T : gtransform) (q : vec) : R := dot (vsub q (g_center T)) (g_z_axis T).

Lemma height_world T q : orthogonal (g_orient T) -> height_over T (apply_gear_transform q T) = g_scale T * vz q.
Proof.
  intros O. rewrite apply_gear_transform_eq. unfold height_over, g_z_axis. set (v := mapp (rotz (g_angle T)) q).
  assert (Z : vz v = vz q) by (unfold v; destruct q; unfold mapp, rotz; cbn; ring). rewrite <- Z. clearbody v.
  unfold orthogonal in O. destruct (g_orient T) as [a b c d e f g h i]. apply (f_equal (fun m => (m13 m, m23 m, m33 m))) in O. unfold UNIT3X3 in O. cbn in O.
  injection O as O1 O2 O3. destruct v as [x y w]. cbn [vz]. generalize (g_scale T) (g_center T). intros s0 (c1, c2, c3). unfold dot, vsub, vadd, smul, mapp, col3. cbn. clear Z. nsatz.
Qed.
Lemma slice_point k z q : k_gamma k = 0 -> apply_gear_transform q (k_slice k z) = vadd (turn (z * k_spiral k) q) (V 0 0 z).
Proof.
  intros G. rewrite apply_gear_transform_eq. unfold k_slice. cbn [g_center g_orient g_scale g_angle]. rewrite G, sin_0, cos_0, turn_rotz.
  generalize (mapp (rotz (z * k_spiral k)) q). intros v. replace (1 - z * 2 * 0 / num_teeth (k_tooth k)) with 1 by (unfold Rdiv; ring).
  destruct v. apply vec_eq; unfold vadd, smul, mapp, UNIT3X3, OUT; cbn; ring.
Qed.

(** A section of a cylindrical gear at the height [z] is moved along the axis by [z] modules. *)
Theorem C124_section_height k p z i u : k_gamma k = 0 -> orthogonal (g_orient (k_trf k)) ->
  height_over (k_trf k) (section_pt k p z i u) = g_scale (k_trf k) * (vz (n_point (pr_chain p) u) + z).
Proof.
  intros G O. unfold section_pt. rewrite height_world by exact O. f_equal. rewrite slice_point by exact G. unfold tooth_pt, turn. reflexivity.
Qed.

(** boundary_at_z(z) with the default continuous=True leaves out the step that moves the section to its height ... *)
Theorem C124_default_points k m p c : (1 <= m)%Z -> boundary_at_z k (PyInt m) p true = Ok c ->
  (forall s, exists i u, 0 <= u < 1 /\ c_eval c s = apply_gear_transform (tooth_pt k p i u) (k_trf k)) /\
  c_eval c 0 = apply_gear_transform (tooth_pt k p 0 0) (k_trf k).
Proof.
  intros M E. unfold boundary_at_z in E. cbn [generate_boundary bind] in E. apply Ok_inj in E.
  set (d := new_curve _ _ _ _ _) in E. set (w := fun q => apply_gear_transform q (k_trf k)) in E. set (n := num_teeth_act (k_tooth k)) in d.
  assert (P : forall t, exists i u, 0 <= u < 1 /\ boundary_fun p (tp_pitch_angle (k_tooth k)) (IZR n) t = tooth_pt k p i u).
  { intros t. unfold boundary_fun, tooth_pt. exists (floorZ (t * IZR n)), (t * IZR n - IZR (floorZ (t * IZR n))). pose proof (floorZ_bound (t * IZR n)).
    split; [lra|]. rewrite turn_rotz. reflexivity. }
  assert (F : forall s, c_eval c s = w (c_eval d (s2t c s))) by (intros s; rewrite <- E; reflexivity).
  split.
  - intros s. destruct (P (s2t d (s2t c s))) as (i & u & U & EP). exists i, u. split; [exact U|]. rewrite F. unfold w. f_equal. rewrite <- EP. reflexivity.
  - assert (S0 : c_eval c 0 = w (c_eval d 0)).
    { rewrite <- E. rewrite fresh_start; [reflexivity|apply new_fresh|apply NDIV_2]. }
    rewrite S0. unfold w. f_equal. rewrite fresh_start; [|apply new_fresh|change (2 <= Z.to_nat (m * 20))%nat; lia].
    change (boundary_fun p (tp_pitch_angle (k_tooth k)) (IZR n) 0 = tooth_pt k p 0 0). unfold boundary_fun, tooth_pt. rewrite Rmult_0_l.
    replace (floorZ 0) with 0%Z by (symmetry; apply (floorZ_IZR 0)). rewrite turn_rotz. change (IZR 0) with 0. replace (0 - 0) with 0 by ring. reflexivity.
Qed.
(** ... so that it gives the same curve at every height ... *)
Theorem C124_default_same sv fs ts g teeth z z' : ip_crown (ig_in g) = 0 ->
  ig_boundary sv fs ts g teeth z true = ig_boundary sv fs ts g teeth z' true.
Proof.
  intros CR. assert (PI' : ig_pia g z = ig_pia g z') by (unfold ig_pia, crowning; rewrite CR; unfold Rdiv; ring).
  unfold ig_boundary, ig_profile. assert (ET : ig_tooth ts g z = ig_tooth ts g z') by (unfold ig_tooth; rewrite PI'; reflexivity). rewrite ET.
  destruct (ig_tooth ts g z') as [tooth|]; cbn [bind]; [|reflexivity]. unfold generate_reference_profile.
  destruct (filleted_flank _ _ _ _ _ _) as [f|]; cbn [bind]; [|reflexivity]. destruct (trim_reference_profile _ _ _ _ _ _) as [p|]; cbn [bind]; reflexivity.
Qed.
Theorem C124_default_same_cycloid sv fs top g teeth z z' : cp_crown (cg_in g) = 0 ->
  cg_boundary sv fs top g teeth z true = cg_boundary sv fs top g teeth z' true.
Proof.
  intros CR. unfold cg_boundary, cg_profile. rewrite (cyc_tooth_const top g z z' CR). unfold generate_reference_profile.
  destruct (filleted_flank _ _ _ _ _ _) as [f|]; cbn [bind]; [|reflexivity]. destruct (trim_reference_profile _ _ _ _ _ _) as [p|]; cbn [bind]; reflexivity.
Qed.
(** ... and the start of the curve is at the height of the section only for z = 0. *)
Theorem C124_default_height k m p z c : (1 <= m)%Z -> k_gamma k = 0 -> orthogonal (g_orient (k_trf k)) -> g_scale (k_trf k) <> 0 ->
  boundary_at_z k (PyInt m) p true = Ok c ->
  (c_eval c 0 = section_pt k p z 0 0 -> z = 0) /\ (z = 0 -> c_eval c 0 = section_pt k p z 0 0) /\
  (forall s, exists i u, 0 <= u < 1 /\ height_over (k_trf k) (c_eval c s) = height_over (k_trf k) (section_pt k p z i u) - g_scale (k_trf k) * z).
Proof.
  intros M G O S E. destruct (C124_default_points k m p c M E) as (A & B). split; [|split].
  - intros EQ. apply (f_equal (height_over (k_trf k))) in EQ. rewrite C124_section_height, B, height_world in EQ by assumption.
    change (vz (tooth_pt k p 0 0)) with (vz (n_point (pr_chain p) 0)) in EQ. assert (K : g_scale (k_trf k) * z = 0) by lra.
    destruct (Rmult_integral _ _ K); [contradiction|assumption].
  - intros ->. rewrite B. unfold section_pt. f_equal. rewrite slice_point by exact G. rewrite Rmult_0_l, turn_0. destruct (tooth_pt k p 0 0). apply vec_eq; cbn; ring.
  - intros s. destruct (A s) as (i & u & U & EP). exists i, u. split; [exact U|]. rewrite C124_section_height, EP, height_world by assumption.
    change (vz (tooth_pt k p i u)) with (vz (n_point (pr_chain p) u)). ring.
Qed.
(** With a number of teeth that is a float the default fails. *)
Theorem C124_float_teeth k x p : boundary_at_z k (PyFloat x) p true = Err TypeError.
Proof. reflexivity. Qed.

(** ** continuous=False *)
Lemma place_inj T q r : g_scale T <> 0 -> orthogonal (g_orient T) -> apply_gear_transform q T = apply_gear_transform r T -> q = r.
Proof.
  intros SC OR. rewrite !apply_gear_transform_eq. intros H. set (O := g_orient T) in *. set (k := g_scale T) in *.
  assert (H2 : smul k (mapp O (mapp (rotz (g_angle T)) (vsub q r))) = ORIGIN).
  { apply (f_equal (fun v => vsub v (vadd (smul k (mapp O (mapp (rotz (g_angle T)) r))) (g_center T)))) in H.
    rewrite vsub_diag in H. rewrite <- H. generalize (rotz (g_angle T)) (g_center T). intros m c.
    clearbody O k. clear. destruct O, m, c, q, r. apply vec_eq; vec_simpl; ring. }
  apply vsub_eq0, norm_zero. apply (f_equal norm) in H2. rewrite norm_smul, norm_ORIGIN, orthogonal_norm in H2 by exact OR.
  rewrite orthogonal_norm in H2 by apply rotation_rotz. destruct (Rmult_integral _ _ H2) as [K|K]; [|exact K]. exfalso. apply SC.
  destruct (Req_dec k 0) as [E|E]; [exact E|]. apply Rabs_pos_lt in E. lra.
Qed.
Lemma turn_inj a q r : turn a q = turn a r -> q = r.
Proof. intros E. apply vsub_eq0, norm_zero. rewrite <- (turn_dist a), E, vsub_diag. apply norm_ORIGIN. Qed.

(** The outline of one tooth does not cross itself. *)
Definition simple_tooth (p : profile) : Prop :=
  forall u v, 0 <= u <= 1 -> 0 <= v <= 1 -> n_point (pr_chain p) u = n_point (pr_chain p) v -> u = v.

Lemma member_length p pitch i : n_active (pr_chain p) = true -> simple_tooth p ->
  g_scale (pr_trf p) <> 0 -> orthogonal (g_orient (pr_trf p)) -> 0 < c_length (boundary_member p pitch i).
Proof.
  intros A INJ SC OR. pose proof (sampled_injective p pitch i A INJ SC OR) as (I1 & I2). set (b := boundary_member p pitch i) in *.
  destruct (transformed_new (rotate_func (normalize OUT) (INR i * pitch) ORIGIN) _ A) as (_ & EF & F1 & AC & N1 & T1 & T1').
  fold (n_rotated (pr_chain p) (INR i * pitch) OUT ORIGIN) in EF, F1, AC, N1, T1, T1'. set (rot := n_rotated (pr_chain p) (INR i * pitch) OUT ORIGIN) in *.
  destruct (transformed_new (fun q => apply_gear_transform q (pr_trf p)) (Prim rot) AC) as (E2 & _).
  change (n_transformed (fun q => apply_gear_transform q (pr_trf p)) (Prim rot)) with b in E2.
  set (f := fun t => apply_gear_transform (n_point (Prim rot) t) (pr_trf p)) in *.
  destruct (C28_table_is_length_share f true 0 1 NDIV 1 ltac:(unfold NDIV; lia) ltac:(unfold NDIV; lia)) as (L & _ & SH).
  assert (EB : update_lengths (new_curve (SGen f) true 0 1 NDIV) = b) by (rewrite E2; apply new_fresh). rewrite EB in L, SH.
  assert (D0 : 0 <= c_length b).
  { rewrite L. clear. generalize (NDIV - 1)%nat. intros m. induction m as [|m IH]; [unfold chord_sum; cbn; lra|]. rewrite chord_sum_S.
    pose proof (norm_nonneg (vsub (f (0 + (1 - 0) * INR (S m) / INR (NDIV - 1))) (f (0 + (1 - 0) * INR m / INR (NDIV - 1))))). lra. }
  destruct D0 as [D|D]; [exact D|exfalso]. rewrite <- D, Rmult_0_r, chord_sum_S in SH. unfold chord_sum in SH. cbn [seq map fold_right] in SH.
  rewrite Rplus_0_l in SH. symmetry in SH. apply norm_zero, vsub_eq0 in SH. unfold f in SH. apply place_inj in SH; [|assumption|assumption].
  unfold n_point in SH. cbn [n_eval] in SH. unfold c_eval in SH. rewrite !EF, !turn_rotate in SH. apply turn_inj in SH.
  assert (N20 : INR (NDIV - 1) = 20) by (unfold NDIV; cbn; lra). rewrite N20 in SH. cbn [INR] in SH.
  replace (0 + (1 - 0) * 1 / 20) with (1 / 20) in SH by field. replace (0 + (1 - 0) * 0 / 20) with 0 in SH by field.
  pose proof NDIV_2 as N2. destruct (s2t_onto rot F1 ltac:(rewrite N1; exact N2) I1 T1 T1') as (_ & _ & AR & _).
  pose proof (C28_strictly_monotone rot F1 ltac:(rewrite N1; exact N2) I1 ltac:(lra) 0 (1 / 20) ltac:(lra) ltac:(lra) ltac:(lra)) as M.
  apply INJ in SH; [lra|apply AR; lra|apply AR; lra].
Qed.

(** With continuous=False the points are those of the section at [z], all of them and no others. *)
Theorem C124_chain_points k p z teeth c : (1 <= num_teeth_act (k_tooth k))%Z -> pr_trf p = k_slice k z -> g_scale (k_slice k z) <> 0 ->
  n_active (pr_chain p) = true -> simple_tooth p -> n_point (pr_chain p) 1 = turn (tp_pitch_angle (k_tooth k)) (n_point (pr_chain p) 0) ->
  boundary_at_z k teeth p false = Ok c ->
  c_eval c 0 = section_pt k p z 0 0 /\
  forall q, (exists t, 0 <= t <= 1 /\ c_fun c t = q) <-> (exists i u, (0 <= i < num_teeth_act (k_tooth k))%Z /\ 0 <= u <= 1 /\ section_pt k p z i u = q).
Proof.
  intros N EZ SC A INJ CL E. unfold boundary_at_z in E. apply Ok_inj in E. set (pitch := tp_pitch_angle (k_tooth k)) in *. set (n := num_teeth_act (k_tooth k)) in *.
  set (w := fun q => apply_gear_transform q (k_trf k)) in E. set (ch := generate_boundary_chain p pitch (Z.to_nat n)) in E.
  assert (SC' : g_scale (pr_trf p) <> 0) by (rewrite EZ; exact SC). assert (OR : orthogonal (g_orient (pr_trf p))) by (rewrite EZ; apply rotation_I).
  assert (S : forall i, sampled p pitch i) by (intros i; apply sampled_injective; assumption).
  assert (LP : forall i, 0 < c_length (boundary_member p pitch i)) by (intros i; apply member_length; assumption).
  assert (MB : forall i, fresh (boundary_member p pitch i) /\ c_act (boundary_member p pitch i) = true /\ c_ndiv (boundary_member p pitch i) = NDIV).
  { intros i. destruct (transformed_new (rotate_func (normalize OUT) (INR i * pitch) ORIGIN) _ A) as (_ & _ & _ & AC & _).
    fold (n_rotated (pr_chain p) (INR i * pitch) OUT ORIGIN) in AC.
    destruct (transformed_new (fun q => apply_gear_transform q (pr_trf p)) (Prim (n_rotated (pr_chain p) (INR i * pitch) OUT ORIGIN)) AC) as (_ & _ & F2 & A2 & N2 & _).
    split; [exact F2|]. split; [exact A2|exact N2]. }
  assert (LV : forall l, leaves (Chain true (map (fun i => Prim (boundary_member p pitch i)) l)) = map (boundary_member p pitch) l).
  { intros l. cbn [leaves]. induction l as [|i l IH]; [reflexivity|]. cbn [map flat_map leaves] in *. destruct (MB i) as (_ & AC & _). rewrite AC. cbn [app]. f_equal. exact IH. }
  assert (FR : forall l, List.Forall fresh (map (boundary_member p pitch) l)) by (induction l; constructor; [apply MB|assumption]).
  assert (NN : (0 < Z.to_nat n)%nat) by lia.
  assert (AC : n_active (Chain true (map (fun i => Prim (boundary_member p pitch i)) (seq 0 (Z.to_nat n)))) = true).
  { apply active_leaves. rewrite LV. destruct (Z.to_nat n); [lia|discriminate]. }
  assert (CH : ch = Chain true (map (fun i => Prim (boundary_member p pitch i)) (seq 0 (Z.to_nat n)))).
  { unfold ch, generate_boundary_chain, new_chain. apply update_id; [exact AC|]. rewrite LV. apply FR. }
  assert (LC : leaves ch = map (boundary_member p pitch) (seq 0 (Z.to_nat n))) by (rewrite CH; apply LV).
  assert (AH : n_active ch = true) by (rewrite CH; exact AC).
  assert (PS : List.Forall (fun c => 0 < c_length c) (leaves ch)).
  { rewrite LC. apply Forall_forall. intros x IX. apply in_map_iff in IX. destruct IX as (i & <- & I). apply LP. }
  assert (TP : forall i u, apply_gear_transform (apply_gear_transform (turn (INR i * pitch) (n_point (pr_chain p) u)) (pr_trf p)) (k_trf k) = section_pt k p z (Z.of_nat i) u).
  { intros i u. rewrite EZ. unfold section_pt, tooth_pt. rewrite <- INR_IZR_INZ. reflexivity. }
  destruct (transformed_new w ch AH) as (_ & TF & FF & _ & ND & T0 & _). rewrite E in TF, FF, ND, T0.
  split.
  - rewrite fresh_start; [|exact FF|rewrite ND; apply NDIV_2]. rewrite TF, T0.
    destruct (leaves_ends ch dummy_curve AH PS) as (-> & _). rewrite LC. destruct (Z.to_nat n) as [|n'] eqn:EN; [lia|]. cbn [seq map List.hd].
    destruct (C55_member p pitch 0 A (S 0%nat)) as (-> & _). apply (TP 0%nat 0).
  - intros q. split.
    + intros (t & T & <-). destruct (point_leaf ch t AH PS T) as (d & v & ID & V0 & EP). rewrite LC in ID. apply in_map_iff in ID. destruct ID as (i & <- & I). apply in_seq in I.
      destruct (C55_member p pitch i A (S i)) as (_ & _ & M). destruct (proj1 (M (c_eval (boundary_member p pitch i) v))) as (u & U & EU); [exists v; auto|].
      exists (Z.of_nat i), u. split; [lia|]. split; [exact U|]. rewrite <- TP, EU, <- EP, TF. reflexivity.
    + intros (i & u & I & U & <-).
      assert (PT : forall j v, (j < Z.to_nat n)%nat -> 0 <= v <= 1 -> j = 0%nat \/ 0 < v -> exists t, 0 <= t <= 1 /\ c_fun c t = w (c_eval (boundary_member p pitch j) v)).
      { intros j v J V JV. assert (LS : leaves ch = map (boundary_member p pitch) (seq 0 j) ++ boundary_member p pitch j :: map (boundary_member p pitch) (seq (j + 1) (Z.to_nat n - j - 1))).
        { rewrite LC. replace (Z.to_nat n) with (j + (1 + (Z.to_nat n - j - 1)))%nat at 1 by lia. rewrite seq_app, map_app. cbn [seq map Nat.add]. rewrite Nat.add_1_r. reflexivity. }
        destruct (leaf_spot ch _ _ _ v AH PS LS V) as (s & S1 & _ & _ & ES). { destruct JV as [->|JV]; [left; reflexivity|right; exact JV]. }
        exists s. split; [exact S1|]. rewrite TF, ES. reflexivity. }
      set (j := Z.to_nat i). assert (EJ : Z.of_nat j = i) by (unfold j; lia). rewrite <- EJ, <- TP. assert (J : (j < Z.to_nat n)%nat) by (unfold j; lia). clearbody j.
      destruct (C55_member p pitch j A (S j)) as (M0 & _ & M). destruct (proj2 (M (apply_gear_transform (turn (INR j * pitch) (n_point (pr_chain p) u)) (pr_trf p)))) as (v & V & EV); [exists u; auto|].
      destruct (Req_dec v 0) as [->|NZ].
      * destruct j as [|j].
        { destruct (PT 0%nat 0 J ltac:(lra) (or_introl eq_refl)) as (t & T & ET). exists t. split; [exact T|]. rewrite ET, EV. reflexivity. }
        destruct (PT j 1 ltac:(lia) ltac:(lra) (or_intror Rlt_0_1)) as (t & T & ET). exists t. split; [exact T|]. rewrite ET, <- EV, M0.
        destruct (C55_member p pitch j A (S j)) as (_ & -> & _). unfold w. rewrite CL, turn_turn. do 3 f_equal. rewrite S_INR. ring.
      * assert (V1 : 0 < v) by (destruct (proj1 V) as [K|K]; [exact K|symmetry in K; contradiction]). destruct (PT j v J V (or_intror V1)) as (t & T & ET). exists t. split; [exact T|]. rewrite ET, EV. reflexivity.
Qed.

(** ** Gears *)
Lemma profile_slice sv fs ts g z p : ig_profile sv fs ts g z = Ok p -> pr_trf p = k_slice (ig_core g) z.
Proof.
  unfold ig_profile. destruct (ig_tooth ts g z) as [tooth|]; cbn [bind]; [|discriminate]. unfold generate_reference_profile.
  destruct (filleted_flank _ _ _ _ _ _) as [f|]; cbn [bind]; [|discriminate]. destruct (trim_reference_profile _ _ _ _ _ _) as [p0|]; cbn [bind]; [|discriminate].
  intros E. apply Ok_inj in E. rewrite <- E. reflexivity.
Qed.
(** A cylindrical involute gear with teeth: the default result is the outline of the section at height 0, at whatever height it is asked for. *)
Theorem C124_gear sv fs ts g n z t : cyl_gear g n -> toothed sv fs ts g n z t ->
  orthogonal (g_orient (k_trf (ig_core g))) -> g_scale (k_trf (ig_core g)) <> 0 ->
  exists p c, ig_profile sv fs ts g z = Ok p /\ pr_trf p = k_slice (ig_core g) z /\ ig_boundary sv fs ts g (PyInt n) z true = Ok c /\
    (c_eval c 0 = section_pt (ig_core g) p z 0 0 <-> z = 0) /\
    (forall s, exists i u, 0 <= u < 1 /\
       height_over (k_trf (ig_core g)) (c_eval c s) = height_over (k_trf (ig_core g)) (section_pt (ig_core g) p z i u) - g_scale (k_trf (ig_core g)) * z).
Proof.
  intros CG [(rc & FL) FT RG TG _] O SC.
  destruct (section_made sv fs ts (fun _ => 0) (as_hgear g) n z rc t CG FL FT RG TG) as (cp & E & _). unfold gear_section in E. cbn [as_hgear h_gear] in E.
  destruct (ig_profile sv fs ts g z) as [p|] eqn:EP; cbn [bind] in E; [|discriminate]. clear E.
  assert (N1 : (1 <= n)%Z) by (pose proof (cg_n _ _ CG); lia).
  assert (EC : exists c, boundary_at_z (ig_core g) (PyInt n) p true = Ok c) by (eexists; reflexivity). destruct EC as (c & EC).
  destruct (C124_default_height _ n p z c N1 (cg_gamma _ _ CG) O SC EC) as (H1 & H2 & H3).
  exists p, c. split; [reflexivity|]. split; [apply (profile_slice _ _ _ _ _ _ EP)|]. split; [unfold ig_boundary; rewrite EP; exact EC|]. split; [split; assumption|exact H3].
Qed.
Lemma simple_from_boundary p n : (2 <= n)%Z -> n_point (pr_chain p) 1 = turn (2 * PI / IZR n) (n_point (pr_chain p) 0) ->
  (forall x y, 0 <= x < 1 -> 0 <= y < 1 -> boundary_fun p (2 * PI / IZR n) (IZR n) x = boundary_fun p (2 * PI / IZR n) (IZR n) y -> x = y) -> simple_tooth p.
Proof.
  intros N CL INJ u v U V E. assert (N2 : 2 <= IZR n) by (apply IZR_le in N; exact N).
  assert (B : forall x, 0 <= x <= 1 -> boundary_fun p (2 * PI / IZR n) (IZR n) (x / IZR n) = n_point (pr_chain p) x).
  { intros x X. destruct (Req_dec x 1) as [->|NE].
    - pose proof (C53_teeth p (2 * PI / IZR n) (IZR n) 1 0 ltac:(lra) ltac:(lra)) as T. cbn [INR] in T. rewrite Rplus_0_r, Rmult_1_l in T. rewrite T, CL. reflexivity.
    - pose proof (C53_teeth p (2 * PI / IZR n) (IZR n) 0 x ltac:(lra) ltac:(lra)) as T. cbn [INR] in T. rewrite Rplus_0_l, Rmult_0_l, turn_0 in T. exact T. }
  assert (R : forall x, 0 <= x <= 1 -> 0 <= x / IZR n < 1).
  { intros x X. split; [apply Rmult_le_pos; [lra|left; apply Rinv_0_lt_compat; lra]|]. apply Rmult_lt_reg_r with (IZR n); [lra|]. replace (x / IZR n * IZR n) with x by (field; lra). lra. }
  rewrite <- !B in E by assumption. apply INJ in E; [|apply R; assumption|apply R; assumption].
  apply (f_equal (fun x => x * IZR n)) in E. replace (u / IZR n * IZR n) with u in E by (field; lra). replace (v / IZR n * IZR n) with v in E by (field; lra). exact E.
Qed.

(** A plain spur gear, as in C106: continuous=False gives the section at the height asked for, all its points and no others. *)
Theorem C124_spur sv fs ts g n z : plain_spur g n -> cyl_gear g n -> (2 <= n)%Z -> spur_at g n z -> searched sv ts g n z ->
  let ip := ig_in g in let rp := IZR n / 2 in let pia := ig_pia g z in
  let rd := rp - (ip_ded ip - ip_shift ip) in let ra := rp + (ip_add ip + ip_shift ip) in let pitch := 2 * PI / IZR n in
  / 10000000000 < space_width rp (ip_alpha ip) pia rd pitch -> / 10000000000 < OutlineProps.land_width rp (ip_alpha ip) pia ra ->
  exists p c, ig_profile sv fs ts g z = Ok p /\ ig_boundary sv fs ts g (PyInt n) z false = Ok c /\
    c_eval c 0 = section_pt (ig_core g) p z 0 0 /\
    forall q, (exists x, 0 <= x <= 1 /\ c_fun c x = q) <-> (exists i u, (0 <= i < n)%Z /\ 0 <= u <= 1 /\ section_pt (ig_core g) p z i u = q).
Proof.
  intros H CG N2 SP SE ip rp pia rd ra pitch WS WL.
  destruct (C105_gear sv fs ts g n z H SP SE) as (p & EP & _). destruct SE as (S & T & TF & RF).
  destruct (C105_flank sv ts _ _ _ _ _ _ _ _ SP S T TF RF) as (t & TR & FO & NO & FR & P0 & P1 & PS & UPS).
  destruct (spur_leading t _ _ _ _ _ _ SP P0 P1 PS UPS) as (LE & R0 & R1 & G0 & G1).
  pose proof (spur_core g n z H) as K. cbv zeta in K. destruct K as (E1 & E2 & E3 & E4 & E5 & E6 & E7 & E8 & SO & _).
  assert (HN : (0 < n)%Z) by lia. pose proof (profile_slice _ _ _ _ _ _ EP) as PZ.
  pose proof EP as EQ. unfold ig_profile in EQ. rewrite (spur_tooth ts g n z H) in EQ. cbn [bind] in EQ.
  rewrite E1, E3, E4, E5, E8, (ps_tip _ _ H), (ps_root _ _ H), (ps_trunc _ _ H) in EQ. unfold generate_reference_profile in EQ.
  set (tooth := plane_involute_tooth ts (IZR n / 2) (ip_alpha (ig_in g)) (ig_pia g z)) in *.
  set (rc := generate_reference_circles (IZR n / 2) (ip_add (ig_in g) + ip_shift (ig_in g)) (ip_ded (ig_in g) - ip_shift (ig_in g))
               (k_ho (ig_core g)) 0 (IZR n / 2)) in *.
  replace (reduced_circles fs tooth rc 0 0 (IZR n / 2)) with rc in EQ
    by (unfold reduced_circles; destruct (Rlt_dec 0 0); [lra|reflexivity]).
  replace (filleted_flank fs tooth rc 0 0 (2 * PI / IZR n)) with (Ok tooth) in EQ
    by (unfold filleted_flank; destruct (Rlt_dec 0 0); [lra|reflexivity]).
  cbn [bind] in EQ. destruct (trim_reference_profile sv tooth rc 0 0 (2 * PI / IZR n)) as [p0|] eqn:ET; [|discriminate].
  cbn [bind] in EQ. apply Ok_inj in EQ.
  assert (PC : pr_chain p = pr_chain p0) by (rewrite <- EQ; reflexivity).
  assert (BF : forall x, boundary_fun p pitch (IZR n) x = boundary_fun p0 pitch (IZR n) x) by (intros x; unfold boundary_fun; rewrite PC; reflexivity).
  assert (GR : / 10000000000 < root_gap t (2 * PI / IZR n)) by (rewrite G0; exact WS).
  assert (GT : / 10000000000 < tip_gap t) by (rewrite G1; exact WL).
  pose proof (C106_simple sv tooth rc 0 0 n t p0 _ _ HN FR TR FO LE GR GT ET) as INJ. cbv zeta in INJ. fold pitch in INJ.
  destruct (C53_profile sv tooth rc 0 0 (2 * PI / IZR n) t FR TR FO NO) as (p' & a & b & EP' & EA & EB & _ & _ & PE & _).
  rewrite ET in EP'. injection EP' as <-.
  assert (CL : n_point (pr_chain p) 1 = turn (2 * PI / IZR n) (n_point (pr_chain p) 0)) by (rewrite PC; unfold n_point; rewrite EA, EB; apply PE, GR).
  assert (ST : simple_tooth p).
  { apply (simple_from_boundary p n N2 CL). intros x y X Y E. fold pitch in E. rewrite !BF in E. apply INJ; assumption. }
  assert (AC : n_active (pr_chain p) = true).
  { rewrite PC. destruct (trimmed_assembled _ _ _ _ _ _ _ _ FR TR FO NO ET) as (FR' & AS). destruct (chain_pieces t _ p0 FO FR' NO AS) as (EX & EL).
    assert (LV : leaves (pr_chain p0) = pieces t p0) by (rewrite EX; exact EL). apply active_leaves. rewrite LV. unfold pieces. intros X. apply app_eq_nil in X. destruct X as (_ & X). apply app_eq_nil in X. destruct X as (X & _).
    revert X. apply active_leaves, (fo_act t FO). }
  assert (NA : num_teeth_act (k_tooth (ig_core g)) = n) by apply (cg_act _ _ CG).
  assert (EC : exists c, boundary_at_z (ig_core g) (PyInt n) p false = Ok c) by (eexists; reflexivity). destruct EC as (c & EC).
  destruct (C124_chain_points (ig_core g) p z (PyInt n) c) as (C0 & CQ).
  - rewrite NA. lia.
  - exact PZ.
  - unfold k_slice. cbn [g_scale]. rewrite (cg_gamma _ _ CG), sin_0. unfold Rdiv. rewrite Rmult_0_r, Rmult_0_l. lra.
  - exact AC.
  - exact ST.
  - unfold tp_pitch_angle. rewrite (cg_num _ _ CG). exact CL.
  - exact EC.
  - exists p, c. split; [exact EP|]. split; [unfold ig_boundary; rewrite EP; exact EC|]. split; [exact C0|]. rewrite NA in CQ. exact CQ.
Qed.

(** ** Examples *)
(** Four teeth; the outline of one tooth is a straight line. *)
Definition sq_core : core := mkCore (mkTP 4 0 false) 3 [0; 7] 0 0 2 0 (1 / 5) 0 0 0 0 (mkG (V 1 2 3) UNIT3X3 3 (1 / 2)).
Lemma sq_act : num_teeth_act (k_tooth sq_core) = 4%Z.
Proof. unfold num_teeth_act. cbn. rewrite Rminus_0_r. apply floorZ_IZR. Qed.
Lemma sq_slice z : g_scale (k_slice sq_core z) <> 0.
Proof. unfold k_slice. cbn. rewrite sin_0. unfold Rdiv. rewrite Rmult_0_r, Rmult_0_l. lra. Qed.
Example C124_section_height_example : height_over (k_trf sq_core) (section_pt sq_core (sq_profile (k_slice sq_core 5)) 5 2 (1 / 3)) = 15.
Proof. rewrite C124_section_height; [|reflexivity|apply rotation_I]. rewrite sq_point. cbn. ring. Qed.
Example C124_default_points_example : exists c, boundary_at_z sq_core (PyInt 4) (sq_profile (k_slice sq_core 5)) true = Ok c /\
  c_eval c 0 = V (1 + 3 * cos (1 / 2)) (2 + 3 * sin (1 / 2)) 3.
Proof.
  eexists. split; [reflexivity|]. match goal with |- c_eval ?c 0 = _ => destruct (C124_default_points sq_core 4 (sq_profile (k_slice sq_core 5)) c ltac:(lia) eq_refl) as (_ & ->) end.
  unfold tooth_pt. rewrite Rmult_0_l, turn_0, sq_point, apply_gear_transform_eq. apply vec_eq; cbn; ring.
Qed.
Example C124_default_height_example : exists c, boundary_at_z sq_core (PyInt 4) (sq_profile (k_slice sq_core 5)) true = Ok c /\
  c_eval c 0 <> section_pt sq_core (sq_profile (k_slice sq_core 5)) 5 0 0.
Proof.
  eexists. split; [reflexivity|]. intros E. match type of E with c_eval ?c 0 = _ =>
    destruct (C124_default_height sq_core 4 (sq_profile (k_slice sq_core 5)) 5 c ltac:(lia) eq_refl ltac:(apply rotation_I) ltac:(cbn; lra) eq_refl) as (K & _) end.
  apply K in E. lra.
Qed.
Example C124_chain_points_example : exists c, boundary_at_z sq_core (PyFloat 4) (sq_profile (k_slice sq_core 5)) false = Ok c /\
  c_eval c 0 = V (1 + 3 * cos (1 / 2 + 1)) (2 + 3 * sin (1 / 2 + 1)) 18 /\
  exists t, 0 <= t <= 1 /\ height_over (k_trf sq_core) (c_fun c t) = 15 /\ c_fun c t = section_pt sq_core (sq_profile (k_slice sq_core 5)) 5 2 (1 / 3).
Proof.
  eexists. split; [reflexivity|].
  match goal with |- c_eval ?c 0 = _ /\ _ => destruct (C124_chain_points sq_core (sq_profile (k_slice sq_core 5)) 5 (PyFloat 4) c) as (E0 & Q) end.
  - rewrite sq_act. lia.
  - reflexivity.
  - apply sq_slice.
  - reflexivity.
  - intros u v _ _. rewrite !sq_point. intros E. apply (f_equal vy) in E. exact E.
  - rewrite !sq_point. unfold tp_pitch_angle. cbn [k_tooth sq_core num_teeth]. replace (2 * PI / 4) with (PI / 2) by field.
    unfold turn. cbn [vx vy vz]. rewrite cos_PI2, sin_PI2. apply vec_eq; cbn; ring.
  - reflexivity.
  - split.
    + rewrite E0. unfold section_pt, tooth_pt. rewrite Rmult_0_l, turn_0, sq_point, (slice_point sq_core 5) by reflexivity. rewrite apply_gear_transform_eq, turn_rotz. cbn [k_trf sq_core g_scale g_orient g_angle g_center k_spiral].
      rewrite cos_plus, sin_plus. replace (5 * (1 / 5)) with 1 by field. apply vec_eq; cbn; ring.
    + destruct (proj2 (Q (section_pt sq_core (sq_profile (k_slice sq_core 5)) 5 2 (1 / 3)))) as (t & T & ET).
      * exists 2%Z, (1 / 3). rewrite sq_act. split; [lia|]. split; [lra|reflexivity].
      * exists t. split; [exact T|]. split; [rewrite ET; apply C124_section_height_example|exact ET].
Qed.
Example C124_float_teeth_example : boundary_at_z sq_core (PyFloat 4) (sq_profile (k_slice sq_core 5)) true = Err TypeError.
Proof. apply C124_float_teeth. Qed.
Example C124_default_same_example sv fs ts : ig_boundary sv fs ts ex_gear (PyInt 8) 0 true = ig_boundary sv fs ts ex_gear (PyInt 8) (3 / 2) true.
Proof. apply C124_default_same, ex_cyl. Qed.
Example C124_default_same_cycloid_example sv fs top : cg_boundary sv fs top ex_cyc (PyInt 12) 0 true = cg_boundary sv fs top ex_cyc (PyInt 12) 5 true.
Proof. apply C124_default_same_cycloid. reflexivity. Qed.
Lemma ex_trf : orthogonal (g_orient (k_trf (ig_core ex_gear))) /\ g_scale (k_trf (ig_core ex_gear)) = 2.
Proof.
  unfold ex_gear, ig_new. assert (NN : ip_normalise (RadiiProps.ex_param (2 * sqrt 6 - 4) 0) = RadiiProps.ex_param (2 * sqrt 6 - 4) 0).
  { unfold ip_normalise, RadiiProps.ex_param. cbn [ip_teeth]. destruct (Rlt_dec 8 0); [lra|reflexivity]. }
  rewrite NN. split; [apply rotation_I|reflexivity].
Qed.
(** Asked for the outline at the top of a gear of module 2 (height 3/2 modules), the default answers with an outline 3 mm too low. *)
Example C124_gear_example : exists sv ts, forall fs, exists p c, ig_profile sv fs ts ex_gear (3 / 2) = Ok p /\ ig_boundary sv fs ts ex_gear (PyInt 8) (3 / 2) true = Ok c /\
  c_eval c 0 <> section_pt (ig_core ex_gear) p (3 / 2) 0 0 /\
  forall s, exists i u, 0 <= u < 1 /\ height_over (k_trf (ig_core ex_gear)) (c_eval c s) = height_over (k_trf (ig_core ex_gear)) (section_pt (ig_core ex_gear) p (3 / 2) i u) - 3.
Proof.
  destruct ex_toothed as (sv & ts & TD). exists sv, ts. intros fs. destruct (TD fs (3 / 2)) as (t & T & _). destruct ex_cyl as (CG & _). destruct ex_trf as (O & S2).
  destruct (C124_gear sv fs ts ex_gear 8 (3 / 2) t CG T O ltac:(rewrite S2; lra)) as (p & c & EP & _ & EC & H & HH).
  exists p, c. split; [exact EP|]. split; [exact EC|]. split; [intros E; apply H in E; lra|].
  intros s. destruct (HH s) as (i & u & U & E). exists i, u. split; [exact U|]. rewrite E, S2. field.
Qed.
Theorem C124_default_refuted : ~ (forall sv fs ts g n z p c, cyl_gear g n -> In z (k_zvals (ig_core g)) -> ig_profile sv fs ts g z = Ok p -> ig_boundary sv fs ts g (PyInt n) z true = Ok c ->
  c_eval c 0 = section_pt (ig_core g) p z 0 0).
Proof.
  intros A. destruct C124_gear_example as (sv & ts & E). destruct (E (ReduceProps.meets_at 1)) as (p & c & EP & EC & NE & _).
  apply NE. destruct ex_cyl as (CG & _ & _ & _ & EZ & _). apply (A sv (ReduceProps.meets_at 1) ts ex_gear 8%Z (3 / 2) p c CG); [|exact EP|exact EC].
  rewrite EZ. right. left. field.
Qed.
(** The same gear with continuous=False: the points of the sixth tooth at the top. *)
Example C124_spur_example : exists sv fs ts, exists p c, ig_profile sv fs ts ex_gear (3 / 2) = Ok p /\ ig_boundary sv fs ts ex_gear (PyInt 8) (3 / 2) false = Ok c /\
  c_eval c 0 = section_pt (ig_core ex_gear) p (3 / 2) 0 0 /\ exists x, 0 <= x <= 1 /\ c_fun c x = section_pt (ig_core ex_gear) p (3 / 2) 5 (1 / 2).
Proof.
  destruct ex_searched as (sv & ts & PL & EI & HO & ALL). pose proof PI_3. pose proof PI_4.
  set (g := ig_new (RadiiProps.ex_param (2 * sqrt 6 - 4) 0)) in *. exists sv, (ReduceProps.meets_at 1), ts.
  destruct (ALL (3 / 2)) as (SP & SE).
  destruct (ex_plain (2 * sqrt 6 - 4) 0) as (_ & PA & _). fold g in PA.
  assert (C : cos (PI / 6) = sqrt 3 / 2) by apply cos_PI6.
  assert (S3 : 17 / 10 < sqrt 3) by (apply sqrt_bound; lra). assert (S3' : sqrt 3 < 1733 / 1000) by (apply sqrt_bound_up; lra).
  assert (S6 : 2 < sqrt 6) by (apply sqrt_bound; lra).
  assert (T6 : tan (PI / 6) = 1 / sqrt 3) by apply tan_PI6.
  assert (Q3 : 1 / sqrt 3 = sqrt 3 / 3).
  { pose proof (sqrt_sqrt 3 ltac:(lra)) as Q. field_simplify_eq; [|lra]. replace (sqrt 3 ^ 2) with (sqrt 3 * sqrt 3) by ring. lra. }
  assert (I6 : inv (PI / 6) = sqrt 3 / 3 - PI / 6) by (unfold inv; rewrite T6, Q3; ring).
  assert (SB : forall y, 1 / 1000 < y < 1 -> 1 / 4000 < sin y).
  { intros y Y. pose proof (sin_concave (y / (PI / 2)) (PI / 2)) as K. rewrite sin_PI2 in K.
    replace (y / (PI / 2) * (PI / 2)) with y in K by (field; lra).
    assert (B : y / 2 <= y / (PI / 2) < 1).
    { split.
      - apply Rmult_le_compat_l; [lra|]. apply Rinv_le_contravar; lra.
      - apply Rmult_lt_reg_r with (PI / 2); [lra|]. replace (y / (PI / 2) * (PI / 2)) with y by (field; lra). lra. }
    specialize (K ltac:(lra) ltac:(lra)). lra. }
  assert (PI0 : ig_pia g (3 / 2) = PI / 16) by (rewrite PA; field).
  destruct (C124_spur sv (ReduceProps.meets_at 1) ts g 8 (3 / 2) PL (proj1 ex_cyl) ltac:(lia) SP SE) as (p & c & E1 & E2 & E3 & E4).
  - unfold space_width. rewrite EI, PI0. cbn [RadiiProps.ex_param ip_alpha ip_ded ip_shift].
    rewrite flank_low; rewrite ?C; try lra. rewrite I6.
    match goal with |- _ < 2 * _ * sin ?a => assert (1 / 4000 < sin a) by (apply SB; lra) end. lra.
  - unfold OutlineProps.land_width. rewrite EI, PI0. cbn [RadiiProps.ex_param ip_alpha ip_add ip_shift].
    assert (FA : flank_angle (8 / 2) (PI / 6) (PI / 16) (8 / 2 + (2 * sqrt 6 - 4 + 0)) = 1 - PI / 4 - (sqrt 3 / 3 - PI / 6) - PI / 16).
    { unfold flank_angle. replace (8 / 2 + (2 * sqrt 6 - 4 + 0)) with (2 * (sqrt 2 * sqrt 3)).
      2:{ rewrite <- sqrt_mult by lra. replace (2 * 3) with 6 by ring. field. }
      assert (S2 : 0 < sqrt 2) by (apply sqrt_lt_R0; lra).
      replace (8 / 2 * cos (PI / 6) / (2 * (sqrt 2 * sqrt 3))) with (1 / sqrt 2) by (rewrite C; field; lra).
      rewrite <- cos_PI4, Rmin_right by apply COS_bound. rewrite acos_cos by lra.
      unfold inv at 1. rewrite tan_PI4. rewrite I6. ring. }
    rewrite FA.
    assert (K : 1 / 4000 < sin (- (1 - PI / 4 - (sqrt 3 / 3 - PI / 6) - PI / 16))) by (apply SB; lra).
    assert (1 * (1 / 4000) < 2 * (8 / 2 + (2 * sqrt 6 - 4 + 0)) * sin (- (1 - PI / 4 - (sqrt 3 / 3 - PI / 6) - PI / 16)))
      by (apply Rmult_le_0_lt_compat; lra). lra.
  - exists p, c. split; [exact E1|]. split; [exact E2|]. split; [exact E3|]. apply E4. exists 5%Z, (1 / 2). split; [lia|]. split; [lra|reflexivity].
Qed.
