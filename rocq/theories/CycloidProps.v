(** Properties C46, C47, C80, C81 and the cycloid part of C74. *)
From Coq Require Import Reals Lra Psatz Lia ZArith List Bool.
From Verif Require Import Num Vec Transform TransformProps Params ParamsProps Coords Gen GenProps Interp Curve CurveLem CurveProps Chain
  GearMath GearLem Tooth Wrapper MeshAngleProps MeshLem MeshNormal MeshConj MeshProps Cycloid CycloidLem.
Import ListNotations.
Open Scope R_scope.

(** A cylindrical cycloid gear with [n] teeth, placed anywhere. *)
Record cycloidal (g : cgear) (n : Z) : Prop := {
  cc_core : g = cg_place (cyc_calc (cg_in g)) (k_trf (cg_core g));
  cc_teeth : cp_teeth (cg_in g) = IZR n;
  cc_n : (0 < n)%Z;
  cc_module : 0 < cp_module (cg_in g);
  cc_cone : cp_cone (cg_in g) = 0;
  cc_rin : 0 < cp_rin (cg_in g);
  cc_rout : 0 < cp_rout (cg_in g);
  cc_orient : orthogonal (g_orient (k_trf (cg_core g)));
  cc_scale : g_scale (k_trf (cg_core g)) = cp_module (cg_in g) }.

Lemma cyc_new_cycloidal p n : cp_teeth p = IZR n -> (0 < n)%Z -> 0 < cp_module p -> cp_cone p = 0 ->
  0 < cp_rin p -> 0 < cp_rout p -> cycloidal (cyc_new p) n.
Proof. intros. split; try assumption; try reflexivity. apply rotation_I. Qed.

(** The tooth at the section z = 0, in the gear's own units. *)
Definition tooth_of (g : cgear) (n : Z) : ctooth :=
  mkCT n (k_rp (cg_core g)) (cg_rin g * k_rp (cg_core g)) (cg_rout g * k_rp (cg_core g)) (cg_pia g 0).

(** Radii of the rolling circles in space. *)
Definition roll_in (g : cgear) : R := k_module (cg_core g) * (cg_rin g * k_rp (cg_core g)).
Definition roll_out (g : cgear) : R := k_module (cg_core g) * (cg_rout g * k_rp (cg_core g)).

(** Rolling circles of a pair: in an external pair each gear's outer circle is the other's inner
    circle, in a ring pair outer and inner circles are the same. *)
Definition compatible (g o : cgear) : Prop :=
  if orb (inside_teeth (k_tooth (cg_core g))) (inside_teeth (k_tooth (cg_core o))) then
    roll_out g = roll_out o /\ roll_in g = roll_in o
  else roll_out g = roll_in o /\ roll_in g = roll_out o.

Lemma k_tooth_c g n : cycloidal g n -> k_tooth (cg_core g) = mkTP (IZR n) 0 (cp_inside (cg_in g)).
Proof.
  intros H. rewrite (cc_core _ _ H). cbn [cg_place cyc_calc cg_core with_trf k_tooth].
  rewrite (cc_teeth _ _ H). apply tp_make_pos. apply IZR_lt, H.
Qed.
Lemma k_rp_c g n : cycloidal g n -> k_rp (cg_core g) = IZR n / 2.
Proof. intros H. rewrite (cc_core _ _ H). cbn. rewrite (cc_teeth _ _ H). reflexivity. Qed.
Lemma k_module_c g n : cycloidal g n -> k_module (cg_core g) = cp_module (cg_in g).
Proof. intros H. rewrite (cc_core _ _ H). reflexivity. Qed.
Lemma cg_rin_c g n : cycloidal g n -> cg_rin g = cp_rin (cg_in g).
Proof. intros H. rewrite (cc_core _ _ H). reflexivity. Qed.
Lemma cg_rout_c g n : cycloidal g n -> cg_rout g = cp_rout (cg_in g).
Proof. intros H. rewrite (cc_core _ _ H). reflexivity. Qed.

(** ** C46: the rolling circles *)
Lemma adapt_in_teeth g o : cp_teeth (cg_in (fst (adapt_cycloid_radii g o))) = cp_teeth (cg_in g) /\
  cp_teeth (cg_in (snd (adapt_cycloid_radii g o))) = cp_teeth (cg_in o) /\
  cp_inside (cg_in (fst (adapt_cycloid_radii g o))) = cp_inside (cg_in g) /\
  cp_inside (cg_in (snd (adapt_cycloid_radii g o))) = cp_inside (cg_in o) /\
  cp_module (cg_in (fst (adapt_cycloid_radii g o))) = cp_module (cg_in g) /\
  cp_module (cg_in (snd (adapt_cycloid_radii g o))) = cp_module (cg_in o).
Proof.
  unfold adapt_cycloid_radii. destruct (inside_teeth (k_tooth (cg_core g))); [|destruct (inside_teeth (k_tooth (cg_core o)))];
  cbn; repeat split.
Qed.

Lemma adapt_cycloidal g o n1 n2 : cycloidal g n1 -> cycloidal o n2 ->
  cycloidal (fst (adapt_cycloid_radii g o)) n1 /\ cycloidal (snd (adapt_cycloid_radii g o)) n2.
Proof.
  intros H1 H2. pose proof (IZR_lt _ _ (cc_n _ _ H1)) as N1. pose proof (IZR_lt _ _ (cc_n _ _ H2)) as N2.
  pose proof (cc_rin _ _ H1). pose proof (cc_rout _ _ H1). pose proof (cc_rin _ _ H2). pose proof (cc_rout _ _ H2).
  assert (X : forall a b c, 0 < a -> 0 < b -> 0 < c -> 0 < a / b * c).
  { intros a b c A B C. apply Rmult_lt_0_compat; [apply Rdiv_lt_0_compat|]; assumption. }
  unfold adapt_cycloid_radii. rewrite (k_tooth_c _ _ H1), (k_tooth_c _ _ H2). cbn [inside_teeth num_teeth].
  destruct (cp_inside (cg_in g)); [|destruct (cp_inside (cg_in o))]; cbn [fst snd];
    (split; apply cyc_new_cycloidal; cbn [cyc_calc cg_in with_rin with_rout cp_teeth cp_module cp_cone cp_rin cp_rout];
     try apply H1; try apply H2; try assumption; try (apply X; assumption)).
Qed.

Theorem C46_adapt_shares_circles g o n1 n2 : cycloidal g n1 -> cycloidal o n2 ->
  (compatible (fst (adapt_cycloid_radii g o)) (snd (adapt_cycloid_radii g o)) <->
   cp_module (cg_in g) = cp_module (cg_in o)).
Proof.
  intros H1 H2. destruct (adapt_cycloidal _ _ _ _ H1 H2) as (A1 & A2).
  destruct (adapt_in_teeth g o) as (_ & _ & I1 & I2 & M1 & M2).
  unfold compatible, roll_in, roll_out.
  rewrite (k_tooth_c _ _ A1), (k_tooth_c _ _ A2), (k_rp_c _ _ A1), (k_rp_c _ _ A2), (k_module_c _ _ A1), (k_module_c _ _ A2),
    (cg_rin_c _ _ A1), (cg_rin_c _ _ A2), (cg_rout_c _ _ A1), (cg_rout_c _ _ A2), I1, I2, M1, M2.
  unfold adapt_cycloid_radii. rewrite (k_tooth_c _ _ H1), (k_tooth_c _ _ H2). cbn [inside_teeth num_teeth].
  pose proof (IZR_lt _ _ (cc_n _ _ H1)) as N1. pose proof (IZR_lt _ _ (cc_n _ _ H2)) as N2.
  pose proof (cc_rin _ _ H1). pose proof (cc_rout _ _ H1). pose proof (cc_rin _ _ H2). pose proof (cc_rout _ _ H2).
  assert (X : forall m m' a z z', 0 < a -> 0 < z -> 0 < z' ->
    (m * (a / z * z' * (z / 2)) = m' * (a * (z' / 2)) <-> m = m')).
  { intros m m' a z z' A Z Z'. replace (m * (a / z * z' * (z / 2))) with (m * (a * (z' / 2))) by (field; lra).
    split; [|intros ->; reflexivity]. intros E. apply Rmult_eq_reg_r in E; [exact E|].
    apply Rmult_integral_contrapositive_currified; lra. }
  assert (Y : forall m m' a z z', 0 < a -> 0 < z -> 0 < z' ->
    (m' * (a * (z' / 2)) = m * (a / z * z' * (z / 2)) <-> m = m')).
  { intros. rewrite <- (X m m' a z z') by assumption. split; intros E; symmetry; exact E. }
  destruct (cp_inside (cg_in g)); [|destruct (cp_inside (cg_in o))];
    cbn [orb fst snd cyc_calc cg_in with_rin with_rout cp_rin cp_rout];
    rewrite ?X, ?Y by assumption; intuition congruence.
Qed.

Theorem C46_adapt_twice g o : 
  let r := adapt_cycloid_radii g o in
  0 < cp_teeth (cg_in g) -> 0 < cp_teeth (cg_in o) ->
  k_tooth (cg_core g) = tp_make (cp_teeth (cg_in g)) 0 (cp_inside (cg_in g)) ->
  k_tooth (cg_core o) = tp_make (cp_teeth (cg_in o)) 0 (cp_inside (cg_in o)) ->
  adapt_cycloid_radii (fst r) (snd r) = r.
Proof.
  intros r N1 N2 E1 E2. unfold r, adapt_cycloid_radii. rewrite E1, E2, !tp_make_pos by assumption. cbn [inside_teeth num_teeth].
  destruct (cp_inside (cg_in g)) eqn:I; [|destruct (cp_inside (cg_in o)) eqn:J];
    cbn [fst snd cyc_calc cg_core k_tooth with_rin with_rout cp_teeth cp_inside];
    rewrite ?tp_make_pos by assumption; rewrite ?I, ?J; cbn [inside_teeth num_teeth cg_in with_rin with_rout cp_rin cp_rout];
    reflexivity.
Qed.

(** It does not matter which of the two gears is asked (ring pairs included). *)
Theorem C46_adapt_symmetric g o :
  andb (inside_teeth (k_tooth (cg_core g))) (inside_teeth (k_tooth (cg_core o))) = false ->
  adapt_cycloid_radii o g = (snd (adapt_cycloid_radii g o), fst (adapt_cycloid_radii g o)).
Proof.
  intros H. unfold adapt_cycloid_radii.
  destruct (inside_teeth (k_tooth (cg_core g))), (inside_teeth (k_tooth (cg_core o))); try discriminate; reflexivity.
Qed.

(** ** C46: contact *)
Lemma cyc_mesh_to_planar g o target g' n1 n2 :
  cycloidal g n1 -> cycloidal o n2 -> cyc_mesh_to g o target = Ok g' ->
  let T := k_trf (cg_core g') in let To := k_trf (cg_core o) in
  let ring1 := cp_inside (cg_in g) in let ring2 := cp_inside (cg_in o) in
  let r1 := cp_module (cg_in g) * (IZR n1 / 2) in let r2 := cp_module (cg_in o) * (IZR n2 / 2) in
  cg_in g' = cg_in g /\ cycloidal g' n1 /\
  g_orient T = g_orient To /\
  g_center T = vadd (g_center To) (smul (if orb ring1 ring2 then Rabs (r1 - r2) else r1 + r2) target) /\
  g_angle T = calc_mesh_angle T To (2 * PI / IZR n1) (2 * PI / IZR n2) ring1 ring2.
Proof.
  intros H1 H2 MT. pose proof (IZR_lt _ _ (cc_n _ _ H1)) as N1. pose proof (IZR_lt _ _ (cc_n _ _ H2)) as N2.
  revert MT. unfold cyc_mesh_to.
  assert (K1 : k_cone (cg_core g) = 0) by (rewrite (cc_core _ _ H1); exact (cc_cone _ _ H1)).
  assert (K2 : k_cone (cg_core o) = 0) by (rewrite (cc_core _ _ H2); exact (cc_cone _ _ H2)).
  rewrite K1, K2. destruct (Req_EM_T 0 0) as [_|B]; [|lra].
  unfold k_pitch_angle, tp_pitch_angle, k_pitch_radius.
  rewrite (k_tooth_c _ _ H1), (k_tooth_c _ _ H2), (k_module_c _ _ H1), (k_module_c _ _ H2). cbn [inside_teeth num_teeth].
  intros Q. injection Q as Q. cbn zeta. subst g'.
  cbn [cg_place cg_in cg_core with_trf k_trf g_orient g_center g_angle].
  split; [reflexivity|]. split.
  { split; cbn [cg_place cg_in cg_core with_trf k_trf g_orient g_scale]; try apply H1; [|apply H2].
    rewrite (cc_core _ _ H1) at 1. reflexivity. }
  split; [reflexivity|]. split.
  - rewrite vadd_comm. do 2 f_equal. destruct (orb _ _).
    + f_equal. field.
    + field.
  - replace (IZR n1 * cp_module (cg_in g) / 2) with (cp_module (cg_in g) * (IZR n1 / 2)) by field. reflexivity.
Qed.

Lemma pia0_c g n : cycloidal g n -> 0 < cp_height (cg_in g) ->
  cg_pia g 0 = 2 * PI / IZR n / 4 - (cp_backlash (cg_in g) + cp_crown (cg_in g) / 1000) / (IZR n / 2).
Proof.
  intros H Hh. pose proof (IZR_lt _ _ (cc_n _ _ H)) as N. unfold cg_pia, crowning. rewrite (k_rp_c _ _ H).
  rewrite (cc_core _ _ H). cbn [cg_place cyc_calc cg_core with_trf k_tooth_angle cg_in]. rewrite (cc_teeth _ _ H).
  field. lra.
Qed.

Lemma tooth_ok g n : cycloidal g n -> ct_ok (tooth_of g n).
Proof.
  intros H. pose proof (IZR_lt _ _ (cc_n _ _ H)) as N. unfold ct_ok, tooth_of. cbn [ct_n ct_rp ct_in ct_out].
  rewrite (k_rp_c _ _ H), (cg_rin_c _ _ H), (cg_rout_c _ _ H). pose proof (cc_rin _ _ H). pose proof (cc_rout _ _ H).
  split; [apply H|]. split; [lra|]. split; apply Rmult_lt_0_compat; lra.
Qed.

(** Play per flank, as an arc on the pitch circles. *)
Definition cyc_play (g o : cgear) : R :=
  cp_module (cg_in g) * (cp_backlash (cg_in g) + cp_backlash (cg_in o)
    + (cp_crown (cg_in g) + cp_crown (cg_in o)) / 1000).

Theorem C46_external_contact g o target g' n1 n2 :
  cycloidal g n1 -> cycloidal o n2 -> cp_inside (cg_in g) = false -> cp_inside (cg_in o) = false ->
  compatible g o -> cp_module (cg_in g) = cp_module (cg_in o) ->
  0 < cp_height (cg_in g) -> 0 < cp_height (cg_in o) ->
  / 10 ^ 12 <= cp_module (cg_in g) * (IZR n1 / 2) + cp_module (cg_in o) * (IZR n2 / 2) ->
  norm target = 1 -> dot target (g_z_axis (k_trf (cg_core o))) = 0 ->
  cyc_mesh_to g o target = Ok g' ->
  cycloid_external (k_trf (cg_core g')) (k_trf (cg_core o)) (tooth_of g n1) (tooth_of o n2) (cyc_play g o).
Proof.
  intros H1 H2 I1 I2 CO EM HH1 HH2 RR NT TZ MT.
  destruct (cyc_mesh_to_planar _ _ _ _ _ _ H1 H2 MT) as (IN & H1' & OR & CE & AN). cbn zeta in *.
  rewrite I1, I2 in CE, AN. cbn [orb] in CE.
  pose proof (IZR_lt _ _ (cc_n _ _ H1)) as N1. pose proof (IZR_lt _ _ (cc_n _ _ H2)) as N2.
  pose proof (cc_module _ _ H1) as M1. pose proof (cc_module _ _ H2) as M2.
  destruct (target_dir_eq _ target (cc_orient _ _ H2)) as (psi & EP); [lra|exact TZ|].
  assert (ET : target = dir (g_orient (k_trf (cg_core o))) psi).
  { rewrite <- EP. unfold normalize. rewrite NT, Rinv_1. destruct target; vec_ring. }
  unfold compatible in CO. rewrite (k_tooth_c _ _ H1), (k_tooth_c _ _ H2) in CO. cbn [inside_teeth] in CO. rewrite I1, I2 in CO. cbn [orb] in CO.
  unfold roll_in, roll_out in CO. rewrite (k_module_c _ _ H1), (k_module_c _ _ H2) in CO.
  assert (SS : g_scale (k_trf (cg_core g')) = cp_module (cg_in g)) by (rewrite (cc_scale _ _ H1'), IN; reflexivity).
  apply (ext_cycloid (g_orient (k_trf (cg_core o))) psi); rewrite ?SS, ?(cc_scale _ _ H2);
    cbn [tooth_of ct_rp ct_n ct_in ct_out ct_pia]; rewrite ?(k_rp_c _ _ H1), ?(k_rp_c _ _ H2) in *;
    try assumption; try reflexivity; try tauto.
  - apply (cc_orient _ _ H2).
  - apply (tooth_ok _ _ H1).
  - apply (tooth_ok _ _ H2).
  - rewrite EM. field. lra.
  - rewrite (pia0_c _ _ H1 HH1), (pia0_c _ _ H2 HH2). unfold cyc_play. rewrite <- EM. field. lra.
  - rewrite CE, ET. reflexivity.
Qed.

Theorem C46_adapted_contact g o target g' n1 n2 :
  cycloidal g n1 -> cycloidal o n2 -> cp_inside (cg_in g) = false -> cp_inside (cg_in o) = false ->
  cp_module (cg_in g) = cp_module (cg_in o) -> 0 < cp_height (cg_in g) -> 0 < cp_height (cg_in o) ->
  / 10 ^ 12 <= cp_module (cg_in g) * (IZR n1 / 2) + cp_module (cg_in o) * (IZR n2 / 2) ->
  norm target = 1 -> dot target OUT = 0 ->
  let g1 := fst (adapt_cycloid_radii g o) in let o1 := snd (adapt_cycloid_radii g o) in
  cyc_mesh_to g1 o1 target = Ok g' ->
  cycloid_external (k_trf (cg_core g')) (k_trf (cg_core o1)) (tooth_of g1 n1) (tooth_of o1 n2) (cyc_play g o).
Proof.
  intros H1 H2 I1 I2 EM HH1 HH2 RR NT TZ g1 o1 MT.
  destruct (adapt_cycloidal _ _ _ _ H1 H2) as (A1 & A2). fold g1 in A1. fold o1 in A2.
  destruct (adapt_in_teeth g o) as (_ & _ & J1 & J2 & M1 & M2). fold g1 o1 in J1, J2, M1, M2.
  assert (CO : compatible g1 o1) by (apply (C46_adapt_shares_circles g o n1 n2 H1 H2); exact EM).
  assert (HT : cp_height (cg_in g1) = cp_height (cg_in g) /\ cp_height (cg_in o1) = cp_height (cg_in o)
     /\ cyc_play g1 o1 = cyc_play g o /\ g_z_axis (k_trf (cg_core o1)) = OUT).
  { unfold g1, o1, adapt_cycloid_radii. destruct (inside_teeth (k_tooth (cg_core g))); [|destruct (inside_teeth (k_tooth (cg_core o)))]; cbn;
    repeat split. }
  destruct HT as (E1 & E2 & E3 & E4). rewrite <- E3.
  apply (C46_external_contact g1 o1 target g' n1 n2); try assumption; try congruence.
Qed.

(** Pinion in a ring: play per flank. *)
Definition cyc_ring_play (pinion ring : cgear) : R :=
  cp_module (cg_in pinion) * (cp_backlash (cg_in pinion) - cp_backlash (cg_in ring)
    + (cp_crown (cg_in pinion) - cp_crown (cg_in ring)) / 1000).

Theorem C46_pinion_into_ring g o target g' n1 n2 :
  cycloidal g n1 -> cycloidal o n2 -> cp_inside (cg_in g) = false -> cp_inside (cg_in o) = true ->
  compatible g o -> cp_module (cg_in g) = cp_module (cg_in o) ->
  0 < cp_height (cg_in g) -> 0 < cp_height (cg_in o) ->
  / 10 ^ 12 <= cp_module (cg_in o) * (IZR n2 / 2) - cp_module (cg_in g) * (IZR n1 / 2) ->
  norm target = 1 -> dot target (g_z_axis (k_trf (cg_core o))) = 0 ->
  cyc_mesh_to g o target = Ok g' ->
  cycloid_ring (k_trf (cg_core g')) (k_trf (cg_core o)) (tooth_of g n1) (tooth_of o n2) (cyc_ring_play g o).
Proof.
  intros H1 H2 I1 I2 CO EM HH1 HH2 RR NT TZ MT.
  destruct (cyc_mesh_to_planar _ _ _ _ _ _ H1 H2 MT) as (IN & H1' & OR & CE & AN). cbn zeta in *.
  rewrite I1, I2 in CE, AN. cbn [orb] in CE.
  pose proof (IZR_lt _ _ (cc_n _ _ H1)) as N1. pose proof (IZR_lt _ _ (cc_n _ _ H2)) as N2.
  pose proof (cc_module _ _ H1) as M1. pose proof (cc_module _ _ H2) as M2.
  assert (E12 : 0 < / 10 ^ 12) by (apply Rinv_0_lt_compat; lra).
  destruct (target_dir_eq _ target (cc_orient _ _ H2)) as (psi & EP); [lra|exact TZ|].
  assert (ET : target = dir (g_orient (k_trf (cg_core o))) psi).
  { rewrite <- EP. unfold normalize. rewrite NT, Rinv_1. destruct target; vec_ring. }
  unfold compatible in CO. rewrite (k_tooth_c _ _ H1), (k_tooth_c _ _ H2) in CO. cbn [inside_teeth] in CO. rewrite I1, I2 in CO. cbn [orb] in CO.
  unfold roll_in, roll_out in CO. rewrite (k_module_c _ _ H1), (k_module_c _ _ H2) in CO.
  assert (SS : g_scale (k_trf (cg_core g')) = cp_module (cg_in g)) by (rewrite (cc_scale _ _ H1'), IN; reflexivity).
  rewrite Rabs_left in CE by lra.
  set (D := cp_module (cg_in o) * (IZR n2 / 2) - cp_module (cg_in g) * (IZR n1 / 2)) in *.
  assert (CE' : g_center (k_trf (cg_core g')) = vadd (g_center (k_trf (cg_core o))) (smul (if false then - D else D) (dir (g_orient (k_trf (cg_core o))) psi))).
  { rewrite CE, ET. do 2 f_equal. unfold D. ring. }
  destruct (ring_phase (g_orient (k_trf (cg_core o))) (g_center (k_trf (cg_core o))) psi D (k_trf (cg_core g')) (k_trf (cg_core o)) n1 n2 false true)
    as (m & PH); try reflexivity; try assumption; try apply (cc_n _ _ H1); try apply (cc_n _ _ H2); try apply (cc_orient _ _ H2).
  rewrite <- AN in PH.
  apply (ring_cycloid (g_orient (k_trf (cg_core o))) psi _ _ _ _ _ m); rewrite ?SS, ?(cc_scale _ _ H2);
    cbn [tooth_of ct_rp ct_n ct_in ct_out ct_pia]; rewrite ?(k_rp_c _ _ H1), ?(k_rp_c _ _ H2) in *;
    try assumption; try reflexivity; try tauto.
  - apply (cc_orient _ _ H2).
  - apply (tooth_ok _ _ H1).
  - apply (tooth_ok _ _ H2).
  - rewrite EM. field. lra.
  - rewrite (pia0_c _ _ H1 HH1), (pia0_c _ _ H2 HH2). unfold cyc_ring_play. rewrite <- EM. field. lra.
Qed.

Theorem C46_ring_over_pinion g o target g' n1 n2 :
  cycloidal g n1 -> cycloidal o n2 -> cp_inside (cg_in g) = true -> cp_inside (cg_in o) = false ->
  compatible g o -> cp_module (cg_in g) = cp_module (cg_in o) ->
  0 < cp_height (cg_in g) -> 0 < cp_height (cg_in o) ->
  / 10 ^ 12 <= cp_module (cg_in g) * (IZR n1 / 2) - cp_module (cg_in o) * (IZR n2 / 2) ->
  norm target = 1 -> dot target (g_z_axis (k_trf (cg_core o))) = 0 ->
  cyc_mesh_to g o target = Ok g' ->
  cycloid_ring (k_trf (cg_core o)) (k_trf (cg_core g')) (tooth_of o n2) (tooth_of g n1) (cyc_ring_play o g).
Proof.
  intros H1 H2 I1 I2 CO EM HH1 HH2 RR NT TZ MT.
  destruct (cyc_mesh_to_planar _ _ _ _ _ _ H1 H2 MT) as (IN & H1' & OR & CE & AN). cbn zeta in *.
  rewrite I1, I2 in CE, AN. cbn [orb] in CE.
  pose proof (IZR_lt _ _ (cc_n _ _ H1)) as N1. pose proof (IZR_lt _ _ (cc_n _ _ H2)) as N2.
  pose proof (cc_module _ _ H1) as M1. pose proof (cc_module _ _ H2) as M2.
  assert (E12 : 0 < / 10 ^ 12) by (apply Rinv_0_lt_compat; lra).
  destruct (target_dir_eq _ target (cc_orient _ _ H2)) as (psi & EP); [lra|exact TZ|].
  assert (ET : target = dir (g_orient (k_trf (cg_core o))) psi).
  { rewrite <- EP. unfold normalize. rewrite NT, Rinv_1. destruct target; vec_ring. }
  unfold compatible in CO. rewrite (k_tooth_c _ _ H1), (k_tooth_c _ _ H2) in CO. cbn [inside_teeth] in CO. rewrite I1, I2 in CO. cbn [orb] in CO.
  unfold roll_in, roll_out in CO. rewrite (k_module_c _ _ H1), (k_module_c _ _ H2) in CO.
  assert (SS : g_scale (k_trf (cg_core g')) = cp_module (cg_in g)) by (rewrite (cc_scale _ _ H1'), IN; reflexivity).
  rewrite Rabs_right in CE by lra.
  set (D := cp_module (cg_in g) * (IZR n1 / 2) - cp_module (cg_in o) * (IZR n2 / 2)) in *.
  set (O := g_orient (k_trf (cg_core o))) in *.
  assert (OP : target = vopp (dir O (psi + PI))).
  { rewrite dir_pi, ET. generalize (dir O psi). clear. vec_ring. }
  assert (CE' : g_center (k_trf (cg_core g')) = vadd (g_center (k_trf (cg_core o))) (smul (if true then - D else D) (dir O (psi + PI)))).
  { rewrite CE, OP. generalize (dir O (psi + PI)) (g_center (k_trf (cg_core o))) D. clear. vec_ring. }
  destruct (ring_phase O (g_center (k_trf (cg_core o))) (psi + PI) D (k_trf (cg_core g')) (k_trf (cg_core o)) n1 n2 true false)
    as (m & PH); try reflexivity; try assumption; try apply (cc_n _ _ H1); try apply (cc_n _ _ H2); try apply (cc_orient _ _ H2).
  rewrite <- AN in PH.
  apply (ring_cycloid O (psi + PI) _ _ _ _ _ (- m)); rewrite ?SS, ?(cc_scale _ _ H2);
    cbn [tooth_of ct_rp ct_n ct_in ct_out ct_pia]; rewrite ?(k_rp_c _ _ H1), ?(k_rp_c _ _ H2) in *;
    try assumption; try reflexivity; try (symmetry; tauto).
  - apply (cc_orient _ _ H2).
  - apply (tooth_ok _ _ H2).
  - apply (tooth_ok _ _ H1).
  - rewrite EM. field. lra.
  - rewrite (pia0_c _ _ H1 HH1), (pia0_c _ _ H2 HH2). unfold cyc_ring_play. rewrite <- EM. field. lra.
  - rewrite CE'. fold D. generalize (dir O (psi + PI)) (g_center (k_trf (cg_core o))) D. clear. vec_ring.
  - rewrite opp_IZR, PH. ring.
Qed.

(** The built flank: lower part from a quarter roll of the inner circle to the pitch circle, upper
    part from there; every point of either lies on the cycloid used above. *)
Theorem C46_flank_points rp rin rout pia s1 :
  let lo := cyc_lower rp rin pia in let up := set_end_on (cyc_upper rp rout pia) s1 in
  (forall s, exists t, c_eval lo s = cycloid_circle t rp (- rin * rp) (- pia) ORIGIN 0) /\
  (forall s, exists t, c_eval up s = cycloid_circle t rp (rout * rp) (- pia) ORIGIN 0) /\
  c_eval lo 1 = circle_pt rp (- pia) /\ c_eval up 0 = circle_pt rp (- pia) /\
  c_eval lo 0 = cycloid_circle (- rin * PI / 2) rp (- rin * rp) (- pia) ORIGIN 0 /\
  c_eval up 1 = c_eval (cyc_upper rp rout pia) s1.
Proof.
  cbn zeta.
  assert (Z : forall rc, cycloid_circle 0 rp rc (- pia) ORIGIN 0 = circle_pt rp (- pia)).
  { intros rc. unfold cycloid_circle. replace (0 * rp / rc) with 0 by (unfold Rdiv; ring). rewrite rotz_0, mapp_I, Rplus_0_l.
    unfold circle_pt. vec_ring. }
  assert (F1 : fresh (cyc_lower rp rin pia)) by apply new_fresh.
  assert (F2 : fresh (set_end_on (cyc_upper rp rout pia) s1)) by apply set_end_fresh.
  split; [intros s; exists (s2t (cyc_lower rp rin pia) s); reflexivity|].
  split; [intros s; exists (s2t (set_end_on (cyc_upper rp rout pia) s1) s); reflexivity|].
  split; [rewrite fresh_end by (exact F1 || (change (2 <= 21)%nat; lia)); apply Z|].
  split; [rewrite fresh_start by (exact F2 || (change (2 <= 21)%nat; lia)); apply Z|].
  split; [rewrite fresh_start by (exact F1 || (change (2 <= 21)%nat; lia)); reflexivity|].
  rewrite fresh_end by (exact F2 || (change (2 <= 21)%nat; lia)). reflexivity.
Qed.

Definition ex_cyc (z rin rout bl : R) (ring : bool) : cparam :=
  mkCP z 5 0 0 ORIGIN 0 2 0 0 0 1 1.2 rin rout bl 0 ring 0.
Lemma ex_cyc_ok n rin rout bl ring : (0 < n)%Z -> 0 < rin -> 0 < rout -> cycloidal (cyc_new (ex_cyc (IZR n) rin rout bl ring)) n.
Proof. intros. apply cyc_new_cycloidal; cbn; try assumption; try reflexivity; lra. Qed.

Lemma mesh_to_ok g o target n1 n2 : cycloidal g n1 -> cycloidal o n2 -> exists g', cyc_mesh_to g o target = Ok g'.
Proof.
  intros H1 H2. unfold cyc_mesh_to.
  assert (K1 : k_cone (cg_core g) = 0) by (rewrite (cc_core _ _ H1); exact (cc_cone _ _ H1)).
  assert (K2 : k_cone (cg_core o) = 0) by (rewrite (cc_core _ _ H2); exact (cc_cone _ _ H2)).
  rewrite K1, K2. destruct (Req_EM_T 0 0) as [_|B]; [|lra]. eexists. reflexivity.
Qed.

Lemma e12_le x : 1 <= x -> / 10 ^ 12 <= x.
Proof.
  intros H. apply Rle_trans with 1; [|exact H]. rewrite <- Rinv_1. apply Rinv_le_contravar; [lra|]. apply pow_R1_Rle. lra.
Qed.

Example C46_example : exists g', let g := cyc_new (ex_cyc 12 0.5 0.5 0.1 false) in let o := cyc_new (ex_cyc 24 0.4 0.3 0 false) in
  let g1 := fst (adapt_cycloid_radii g o) in let o1 := snd (adapt_cycloid_radii g o) in
  cyc_mesh_to g1 o1 UP = Ok g' /\ cp_rout (cg_in g1) = 0.8 /\ cp_rout (cg_in o1) = 0.25 /\
  cycloid_external (k_trf (cg_core g')) (k_trf (cg_core o1)) (tooth_of g1 12) (tooth_of o1 24) (cyc_play g o) /\
  cyc_play g o = 0.2.
Proof.
  set (g := cyc_new (ex_cyc 12 0.5 0.5 0.1 false)). set (o := cyc_new (ex_cyc 24 0.4 0.3 0 false)).
  assert (H1 : cycloidal g 12) by (apply ex_cyc_ok; lra || lia). assert (H2 : cycloidal o 24) by (apply ex_cyc_ok; lra || lia).
  destruct (adapt_cycloidal _ _ _ _ H1 H2) as (A1 & A2).
  destruct (mesh_to_ok _ _ UP _ _ A1 A2) as (g' & E). exists g'. cbn zeta. fold g o. split; [exact E|].
  unfold adapt_cycloid_radii at 1 2. rewrite (k_tooth_c _ _ H1), (k_tooth_c _ _ H2).
  cbn [inside_teeth num_teeth g o cyc_new cyc_calc cg_in ex_cyc cp_inside fst snd with_rout with_rin cp_rin cp_rout].
  split; [lra|]. split; [lra|]. split; [|unfold cyc_play; cbn; lra].
  apply (C46_adapted_contact g o UP g' 12 24); try assumption; try reflexivity; cbn; try lra.
  - apply norm_eq; [lra|]. vec_simpl. ring.
  - vec_simpl. ring.
Qed.
Example C46_ring_over_pinion_example : exists g',
  let g := cyc_new (ex_cyc 48 0.125 0.125 0.1 true) in let o := cyc_new (ex_cyc 12 0.5 0.5 0 false) in
  cyc_mesh_to g o UP = Ok g' /\
  cycloid_ring (k_trf (cg_core o)) (k_trf (cg_core g')) (tooth_of o 12) (tooth_of g 48) (cyc_ring_play o g).
Proof.
  assert (H1 : cycloidal (cyc_new (ex_cyc 48 0.125 0.125 0.1 true)) 48) by (apply ex_cyc_ok; lra || lia).
  assert (H2 : cycloidal (cyc_new (ex_cyc 12 0.5 0.5 0 false)) 12) by (apply ex_cyc_ok; lra || lia).
  destruct (mesh_to_ok _ _ UP _ _ H1 H2) as (g' & E). exists g'. cbv zeta. split; [exact E|].
  apply (C46_ring_over_pinion _ _ UP g' 48 12 H1 H2); try reflexivity; try exact E; try (cbn; lra).
  - unfold compatible. rewrite (k_tooth_c _ _ H1), (k_tooth_c _ _ H2). unfold roll_out, roll_in. cbn. split; lra.
  - apply norm_eq; [lra|]. vec_simpl. ring.
  - cbn. unfold g_z_axis, col3, dot. cbn. ring.
Qed.
Example C46_pinion_into_ring_example : exists g',
  let g := cyc_new (ex_cyc 12 0.5 0.5 0.1 false) in let o := cyc_new (ex_cyc 48 0.125 0.125 0 true) in
  cyc_mesh_to g o UP = Ok g' /\
  cycloid_ring (k_trf (cg_core g')) (k_trf (cg_core o)) (tooth_of g 12) (tooth_of o 48) (cyc_ring_play g o).
Proof.
  assert (H1 : cycloidal (cyc_new (ex_cyc 12 0.5 0.5 0.1 false)) 12) by (apply ex_cyc_ok; lra || lia).
  assert (H2 : cycloidal (cyc_new (ex_cyc 48 0.125 0.125 0 true)) 48) by (apply ex_cyc_ok; lra || lia).
  destruct (mesh_to_ok _ _ UP _ _ H1 H2) as (g' & E). exists g'. cbv zeta. split; [exact E|].
  apply (C46_pinion_into_ring _ _ UP g' 12 48 H1 H2); try reflexivity; try exact E; try (cbn; lra).
  - unfold compatible. rewrite (k_tooth_c _ _ H1), (k_tooth_c _ _ H2). unfold roll_out, roll_in. cbn. split; lra.
  - apply norm_eq; [lra|]. vec_simpl. ring.
  - cbn. unfold g_z_axis, col3, dot. cbn. ring.
Qed.
Example C46_external_contact_example : exists g',
  let g := cyc_new (ex_cyc 12 0.5 0.5 0.1 false) in let o := cyc_new (ex_cyc 24 0.25 0.25 0 false) in
  cyc_mesh_to g o UP = Ok g' /\
  cycloid_external (k_trf (cg_core g')) (k_trf (cg_core o)) (tooth_of g 12) (tooth_of o 24) (cyc_play g o).
Proof.
  assert (H1 : cycloidal (cyc_new (ex_cyc 12 0.5 0.5 0.1 false)) 12) by (apply ex_cyc_ok; lra || lia).
  assert (H2 : cycloidal (cyc_new (ex_cyc 24 0.25 0.25 0 false)) 24) by (apply ex_cyc_ok; lra || lia).
  destruct (mesh_to_ok _ _ UP _ _ H1 H2) as (g' & E). exists g'. cbv zeta. split; [exact E|].
  apply (C46_external_contact _ _ UP g' 12 24 H1 H2); try reflexivity; try exact E; try (cbn; lra).
  - unfold compatible. rewrite (k_tooth_c _ _ H1), (k_tooth_c _ _ H2). unfold roll_out, roll_in. cbn. split; lra.
  - apply norm_eq; [lra|]. vec_simpl. ring.
  - cbn. unfold g_z_axis, col3, dot. cbn. ring.
Qed.
Example C46_adapt_symmetric_example :
  let g := cyc_new (ex_cyc 12 0.5 0.5 0.1 false) in let o := cyc_new (ex_cyc 24 0.4 0.3 0 true) in
  adapt_cycloid_radii o g = (snd (adapt_cycloid_radii g o), fst (adapt_cycloid_radii g o)).
Proof.
  cbv zeta. apply C46_adapt_symmetric.
  rewrite (k_tooth_c _ 12), (k_tooth_c _ 24) by (apply ex_cyc_ok; lra || lia). reflexivity.
Qed.
Example C46_adapt_twice_example :
  let r := adapt_cycloid_radii (cyc_new (ex_cyc 12 0.5 0.5 0.1 false)) (cyc_new (ex_cyc 24 0.4 0.3 0 false)) in
  adapt_cycloid_radii (fst r) (snd r) = r.
Proof.
  cbv zeta. apply C46_adapt_twice; [cbn; lra|cbn; lra| |].
  - rewrite (k_tooth_c _ 12) by (apply ex_cyc_ok; lra || lia). unfold tp_make. cbn. destruct (Rlt_dec 12 0); [lra|reflexivity].
  - rewrite (k_tooth_c _ 24) by (apply ex_cyc_ok; lra || lia). unfold tp_make. cbn. destruct (Rlt_dec 24 0); [lra|reflexivity].
Qed.
Example C46_adapt_shares_circles_example :
  let r := adapt_cycloid_radii (cyc_new (ex_cyc 12 0.5 0.5 0.1 false)) (cyc_new (ex_cyc 24 0.4 0.3 0 false)) in
  compatible (fst r) (snd r).
Proof. cbv zeta. apply (C46_adapt_shares_circles _ _ 12 24); try (apply ex_cyc_ok; lra || lia); reflexivity. Qed.

(** ** C47 *)
Theorem C47_adapt_forgets_placement g o :
  k_trf (cg_core (fst (adapt_cycloid_radii g o))) = mkG (cp_center (cg_in g)) UNIT3X3 (cp_module (cg_in g)) (cp_angle (cg_in g)) /\
  k_trf (cg_core (snd (adapt_cycloid_radii g o))) = mkG (cp_center (cg_in o)) UNIT3X3 (cp_module (cg_in o)) (cp_angle (cg_in o)).
Proof.
  unfold adapt_cycloid_radii. destruct (inside_teeth (k_tooth (cg_core g))); [|destruct (inside_teeth (k_tooth (cg_core o)))];
  split; reflexivity.
Qed.

(** The documented order of calls: the gear is back at its construction place; the distance of the
    centres is that of the construction places whatever mesh_to did. *)
Theorem C47_documented_order p q target g' :
  cyc_mesh_to (cyc_new p) (cyc_new q) target = Ok g' ->
  let r := adapt_cycloid_radii g' (cyc_new q) in
  k_trf (cg_core (fst r)) = k_trf (cg_core (cyc_new p)) /\ k_trf (cg_core (snd r)) = k_trf (cg_core (cyc_new q)).
Proof.
  intros MT r. destruct (C47_adapt_forgets_placement g' (cyc_new q)) as (A & B). fold r in A, B. rewrite A, B.
  assert (I : cg_in g' = p).
  { revert MT. unfold cyc_mesh_to, bind.
    repeat match goal with |- context [match ?x with _ => _ end] => destruct x end; intros Q; try discriminate; injection Q as <-; reflexivity. }
  rewrite I. split; reflexivity.
Qed.

(** Two gears at the default place end up co-axial instead of at the sum of the pitch radii. *)
Theorem C47_documented_order_refuted p q target g' n1 n2 :
  cycloidal (cyc_new p) n1 -> cycloidal (cyc_new q) n2 -> cp_inside p = false -> cp_inside q = false ->
  norm target = 1 -> cp_center p = cp_center q ->
  cyc_mesh_to (cyc_new p) (cyc_new q) target = Ok g' ->
  let dist a b := norm (vsub (g_center (k_trf (cg_core a))) (g_center (k_trf (cg_core b)))) in
  let r := adapt_cycloid_radii g' (cyc_new q) in
  dist g' (cyc_new q) = cp_module p * (IZR n1 / 2) + cp_module q * (IZR n2 / 2) /\
  0 < dist g' (cyc_new q) /\ dist (fst r) (snd r) = 0.
Proof.
  intros H1 H2 I1 I2 NT EC MT dist r. unfold dist.
  destruct (C47_documented_order p q target g' MT) as (A & B). cbn zeta in A, B. fold r in A, B.
  destruct (cyc_mesh_to_planar _ _ _ _ _ _ H1 H2 MT) as (IN & H1' & OR & CE & AN). cbn zeta in CE.
  change (cg_in (cyc_new p)) with p in *. change (cg_in (cyc_new q)) with q in *. rewrite I1, I2 in CE. cbn [orb] in CE.
  rewrite A, B, CE.
  pose proof (IZR_lt _ _ (cc_n _ _ H1)) as N1. pose proof (IZR_lt _ _ (cc_n _ _ H2)) as N2.
  pose proof (cc_module _ _ H1) as M1. pose proof (cc_module _ _ H2) as M2.
  change (cg_in (cyc_new p)) with p in *. change (cg_in (cyc_new q)) with q in *.
  set (D := cp_module p * (IZR n1 / 2) + cp_module q * (IZR n2 / 2)).
  assert (0 < D) by (unfold D; nra).
  replace (vsub (vadd _ _) _) with (smul D target) by (generalize (g_center (k_trf (cg_core (cyc_new q)))); clear; revert target D; vec_ring).
  rewrite norm_smul, NT, Rabs_right by lra. split; [ring|]. split; [lra|].
  cbn [cyc_new cyc_calc cg_core k_trf g_center]. rewrite EC, vsub_diag. apply norm_eq; [lra|]. vec_simpl. ring.
Qed.

Example C47_example : exists g', let p := ex_cyc 12 0.5 0.5 0 false in let q := ex_cyc 24 0.5 0.5 0 false in
  cycloidal (cyc_new p) 12 /\ cycloidal (cyc_new q) 24 /\ cyc_mesh_to (cyc_new p) (cyc_new q) UP = Ok g' /\ norm UP = 1 /\
  norm (vsub (g_center (k_trf (cg_core g'))) (g_center (k_trf (cg_core (cyc_new q))))) = 36.
Proof.
  assert (H1 : cycloidal (cyc_new (ex_cyc 12 0.5 0.5 0 false)) 12) by (apply ex_cyc_ok; lra || lia).
  assert (H2 : cycloidal (cyc_new (ex_cyc 24 0.5 0.5 0 false)) 24) by (apply ex_cyc_ok; lra || lia).
  destruct (mesh_to_ok _ _ UP _ _ H1 H2) as (g' & E). exists g'. cbn zeta.
  assert (NU : norm UP = 1) by (apply norm_eq; [lra|]; vec_simpl; ring).
  repeat (split; [assumption|]). 
  destruct (C47_documented_order_refuted _ _ _ _ _ _ H1 H2 eq_refl eq_refl NU eq_refl E) as (A & _). cbn zeta in A.
  rewrite A. cbn. lra.
Qed.
Example C47_documented_order_example : exists g',
  let p := ex_cyc 12 0.5 0.5 0 false in let q := ex_cyc 24 0.5 0.5 0 false in
  cyc_mesh_to (cyc_new p) (cyc_new q) UP = Ok g' /\
  k_trf (cg_core (fst (adapt_cycloid_radii g' (cyc_new q)))) = k_trf (cg_core (cyc_new p)).
Proof.
  destruct C47_example as (g' & _ & _ & E & _). exists g'. cbv zeta in E |- *. split; [exact E|].
  exact (proj1 (C47_documented_order _ _ _ _ E)).
Qed.

(** ** C80: trains *)
(** Adapting a second neighbour keeps the first pair compatible exactly if the inner rolling
    circles of the two neighbours are equal. *)
Theorem C80_train g o h n1 n2 n3 : cycloidal g n1 -> cycloidal o n2 -> cycloidal h n3 ->
  cp_inside (cg_in g) = false -> cp_inside (cg_in o) = false -> cp_inside (cg_in h) = false ->
  cp_module (cg_in g) = cp_module (cg_in o) -> cp_module (cg_in o) = cp_module (cg_in h) ->
  let g1 := fst (adapt_cycloid_radii g o) in let o1 := snd (adapt_cycloid_radii g o) in
  let o2 := fst (adapt_cycloid_radii o1 h) in let h2 := snd (adapt_cycloid_radii o1 h) in
  compatible g1 o1 /\ compatible o2 h2 /\ (compatible g1 o2 <-> roll_in g = roll_in h).
Proof.
  intros H1 H2 H3 I1 I2 I3 EM1 EM2 g1 o1 o2 h2.
  destruct (adapt_cycloidal _ _ _ _ H1 H2) as (A1 & A2). fold g1 in A1. fold o1 in A2.
  destruct (adapt_cycloidal _ _ _ _ A2 H3) as (B2 & B3). fold o2 in B2. fold h2 in B3.
  destruct (adapt_in_teeth g o) as (_ & _ & J1 & J2 & M1 & M2). fold g1 o1 in J1, J2, M1, M2.
  destruct (adapt_in_teeth o1 h) as (_ & _ & K1 & K2 & L1 & L2). fold o2 h2 in K1, K2, L1, L2.
  split; [apply (C46_adapt_shares_circles g o n1 n2 H1 H2); exact EM1|].
  split; [apply (C46_adapt_shares_circles o1 h n2 n3 A2 H3); congruence|].
  unfold compatible, roll_in, roll_out.
  rewrite (k_tooth_c _ _ A1), (k_tooth_c _ _ B2), (k_rp_c _ _ A1), (k_rp_c _ _ B2), (k_module_c _ _ A1), (k_module_c _ _ B2),
    (cg_rin_c _ _ A1), (cg_rin_c _ _ B2), (cg_rout_c _ _ A1), (cg_rout_c _ _ B2), K1, J1, J2, I1, I2, L1, M1, M2.
  rewrite (k_rp_c _ _ H1), (k_rp_c _ _ H3), (k_module_c _ _ H1), (k_module_c _ _ H3), (cg_rin_c _ _ H1), (cg_rin_c _ _ H3).
  cbn [inside_teeth orb].
  assert (X1 : cp_rout (cg_in g1) = cp_rin (cg_in o) / IZR n1 * IZR n2 /\ cp_rin (cg_in g1) = cp_rin (cg_in g) /\ cp_rin (cg_in o1) = cp_rin (cg_in o)).
  { unfold g1, o1, adapt_cycloid_radii. rewrite (k_tooth_c _ _ H1), (k_tooth_c _ _ H2). cbn [inside_teeth num_teeth]. rewrite I1, I2. repeat split. }
  assert (X2 : cp_rout (cg_in o2) = cp_rin (cg_in h) / IZR n2 * IZR n3 /\ cp_rin (cg_in o2) = cp_rin (cg_in o1)).
  { unfold o2, adapt_cycloid_radii. rewrite (k_tooth_c _ _ A2), (k_tooth_c _ _ H3). cbn [inside_teeth num_teeth]. rewrite J2, I2, I3. repeat split. }
  destruct X1 as (-> & -> & X1). destruct X2 as (-> & ->). rewrite X1.
  pose proof (IZR_lt _ _ (cc_n _ _ H1)) as N1. pose proof (IZR_lt _ _ (cc_n _ _ H2)) as N2. pose proof (IZR_lt _ _ (cc_n _ _ H3)) as N3.
  rewrite <- EM2, <- EM1.
  replace (cp_module (cg_in g) * (cp_rin (cg_in h) / IZR n2 * IZR n3 * (IZR n2 / 2))) with (cp_module (cg_in g) * (cp_rin (cg_in h) * (IZR n3 / 2))) by (field; lra).
  split; [intros [_ E]; exact E|]. intros E. split; [field; lra|exact E].
Qed.

(** Equal coefficients, different tooth numbers: the first pair is spoilt. *)
Corollary C80_train_refuted g o h n1 n2 n3 : cycloidal g n1 -> cycloidal o n2 -> cycloidal h n3 ->
  cp_inside (cg_in g) = false -> cp_inside (cg_in o) = false -> cp_inside (cg_in h) = false ->
  cp_module (cg_in g) = cp_module (cg_in o) -> cp_module (cg_in o) = cp_module (cg_in h) ->
  cp_rin (cg_in g) = cp_rin (cg_in h) -> n1 <> n3 ->
  let o1 := snd (adapt_cycloid_radii g o) in
  ~ compatible (fst (adapt_cycloid_radii g o)) (fst (adapt_cycloid_radii o1 h)).
Proof.
  intros H1 H2 H3 I1 I2 I3 EM1 EM2 ER NE o1.
  destruct (C80_train g o h n1 n2 n3 H1 H2 H3 I1 I2 I3 EM1 EM2) as (_ & _ & C). cbn zeta in C. fold o1 in C. rewrite C.
  unfold roll_in. rewrite (k_rp_c _ _ H1), (k_rp_c _ _ H3), (k_module_c _ _ H1), (k_module_c _ _ H3), (cg_rin_c _ _ H1), (cg_rin_c _ _ H3), ER, EM1, EM2.
  pose proof (cc_module _ _ H3). pose proof (cc_rin _ _ H3). intros E. apply NE. apply eq_IZR.
  apply Rmult_eq_reg_l in E; [|lra]. apply Rmult_eq_reg_l in E; lra.
Qed.

Example C80_example : let g := cyc_new (ex_cyc 12 0.5 0.5 0 false) in let o := cyc_new (ex_cyc 24 0.5 0.5 0 false) in
  let h := cyc_new (ex_cyc 18 0.5 0.5 0 false) in
  ~ compatible (fst (adapt_cycloid_radii g o)) (fst (adapt_cycloid_radii (snd (adapt_cycloid_radii g o)) h)).
Proof.
  cbn zeta. apply (C80_train_refuted _ _ _ 12 24 18); try (apply ex_cyc_ok; lra || lia); try reflexivity. lia.
Qed.
Example C80_train_example :
  let g := cyc_new (ex_cyc 12 0.5 0.5 0 false) in let o := cyc_new (ex_cyc 24 0.5 0.5 0 false) in
  let h := cyc_new (ex_cyc 12 0.5 0.5 0 false) in
  compatible (fst (adapt_cycloid_radii g o)) (fst (adapt_cycloid_radii (snd (adapt_cycloid_radii g o)) h)).
Proof.
  cbv zeta.
  assert (H1 : cycloidal (cyc_new (ex_cyc 12 0.5 0.5 0 false)) 12) by (apply ex_cyc_ok; lra || lia).
  assert (H2 : cycloidal (cyc_new (ex_cyc 24 0.5 0.5 0 false)) 24) by (apply ex_cyc_ok; lra || lia).
  destruct (C80_train _ _ _ 12 24 12 H1 H2 H1) as (_ & _ & K); try reflexivity. apply K. reflexivity.
Qed.

(** ** C81: backlash of a cycloid ring gear *)
(** Width of a tooth (or, for a ring, of the space) on the pitch circle at z = 0. *)
Definition pitch_arc (g : cgear) (n : Z) : R := cp_module (cg_in g) * (IZR n / 2) * (2 * cg_pia g 0).

Theorem C81_backlash_arc g n : cycloidal g n -> 0 < cp_height (cg_in g) ->
  pitch_arc g n = cp_module (cg_in g) * (PI / 2 - 2 * cp_backlash (cg_in g) - 2 * cp_crown (cg_in g) / 1000).
Proof.
  intros H Hh. pose proof (IZR_lt _ _ (cc_n _ _ H)) as N. unfold pitch_arc. rewrite (pia0_c _ _ H Hh). field. lra.
Qed.

(** A ring gear made with backlash has narrower spaces: meshed with a plain pinion the pinion's
    teeth are wider than the spaces by twice the backlash. *)
Theorem C81_ring_backlash_refuted g o target g' n1 n2 b :
  cycloidal g n1 -> cycloidal o n2 -> cp_inside (cg_in g) = false -> cp_inside (cg_in o) = true ->
  compatible g o -> cp_module (cg_in g) = cp_module (cg_in o) ->
  0 < cp_height (cg_in g) -> 0 < cp_height (cg_in o) ->
  / 10 ^ 12 <= cp_module (cg_in o) * (IZR n2 / 2) - cp_module (cg_in g) * (IZR n1 / 2) ->
  norm target = 1 -> dot target (g_z_axis (k_trf (cg_core o))) = 0 ->
  cp_crown (cg_in g) = 0 -> cp_crown (cg_in o) = 0 -> cp_backlash (cg_in g) = 0 -> cp_backlash (cg_in o) = b -> 0 < b ->
  cyc_mesh_to g o target = Ok g' ->
  exists gap, gap < 0 /\ gap = - (cp_module (cg_in g) * b) /\
    cycloid_ring (k_trf (cg_core g')) (k_trf (cg_core o)) (tooth_of g n1) (tooth_of o n2) gap /\
    pitch_arc g n1 - pitch_arc o n2 = 2 * (cp_module (cg_in g) * b).
Proof.
  intros H1 H2 I1 I2 CO EM HH1 HH2 RR NT TZ C1 C2 B1 B2 Hb MT.
  pose proof (C46_pinion_into_ring _ _ _ _ _ _ H1 H2 I1 I2 CO EM HH1 HH2 RR NT TZ MT) as R.
  assert (G : cyc_ring_play g o = - (cp_module (cg_in g) * b)) by (unfold cyc_ring_play; rewrite C1, C2, B1, B2; field).
  rewrite G in R. pose proof (cc_module _ _ H1) as M1. eexists. split; [|split; [reflexivity|split; [exact R|]]].
  - assert (0 < cp_module (cg_in g) * b) by (apply Rmult_lt_0_compat; assumption). lra.
  - rewrite (C81_backlash_arc _ _ H1 HH1), (C81_backlash_arc _ _ H2 HH2), C1, C2, B1, B2, EM. field.
Qed.

Example C81_example : exists g' gap, let g := cyc_new (ex_cyc 12 0.5 0.5 0 false) in let o := cyc_new (ex_cyc 48 0.125 0.125 0.1 true) in
  compatible g o /\ cyc_mesh_to g o RIGHT = Ok g' /\ gap < 0 /\
  cycloid_ring (k_trf (cg_core g')) (k_trf (cg_core o)) (tooth_of g 12) (tooth_of o 48) gap.
Proof.
  set (g := cyc_new (ex_cyc 12 0.5 0.5 0 false)). set (o := cyc_new (ex_cyc 48 0.125 0.125 0.1 true)).
  assert (H1 : cycloidal g 12) by (apply ex_cyc_ok; lra || lia). assert (H2 : cycloidal o 48) by (apply ex_cyc_ok; lra || lia).
  destruct (mesh_to_ok _ _ RIGHT _ _ H1 H2) as (g' & E).
  assert (CO : compatible g o).
  { unfold compatible. rewrite (k_tooth_c _ _ H1), (k_tooth_c _ _ H2). unfold roll_out, roll_in. cbn. split; lra. }
  destruct (C81_ring_backlash_refuted g o RIGHT g' 12 48 0.1 H1 H2) as (gap & G & _ & R & _);
    try assumption; try reflexivity; try (apply norm_eq; [lra|]; vec_simpl; ring); cbn [g o cyc_new cyc_calc cg_in ex_cyc cp_module cp_height]; try lra; [cbn; unfold g_z_axis, col3, dot; cbn; ring|].
  exists g', gap. cbn zeta. fold g o. tauto.
Qed.
Example C81_backlash_arc_example : pitch_arc (cyc_new (ex_cyc 12 0.5 0.5 0.1 false)) 12 = 2 * (PI / 2 - 0.2).
Proof.
  rewrite (C81_backlash_arc _ 12); [|apply ex_cyc_ok; lra || lia|cbn; lra]. cbn. lra.
Qed.

(** ** C74: negative tooth numbers of cycloid gears *)
Definition cyc_consistent (g : cgear) : Prop :=
  cp_inside (cg_in g) = inside_teeth (k_tooth (cg_core g)) /\
  (if inside_teeth (k_tooth (cg_core g)) then k_ho (cg_core g) < 0 else 0 < k_ho (cg_core g)) /\
  k_rp (cg_core g) = num_teeth (k_tooth (cg_core g)) / 2.

Theorem C74_cycloid p : cp_teeth p <> 0 -> (cyc_consistent (cyc_new p) <-> 0 < cp_teeth p).
Proof.
  intros N. unfold cyc_consistent, cyc_new, cyc_calc. cbn [cg_in cg_core k_tooth k_ho k_rp].
  unfold tp_make. destruct (Rlt_dec (cp_teeth p) 0) as [L|L]; cbn [inside_teeth num_teeth].
  - split; [intros (_ & _ & E); lra|lra].
  - split; [lra|intros _]. split; [reflexivity|]. split; [destruct (cp_inside p); lra|reflexivity].
Qed.

(** CycloidGear(-n): ring teeth with an outside limit for outside teeth and a mirrored pitch radius. *)
Theorem C74_cycloid_refuted p : cp_teeth p < 0 -> cp_inside p = false ->
  let k := cg_core (cyc_new p) in
  inside_teeth (k_tooth k) = true /\ num_teeth (k_tooth k) = - cp_teeth p /\ k_ho k = 2 /\
  k_rp k = - (num_teeth (k_tooth k) / 2) /\ k_tooth_angle k = - (2 * PI / num_teeth (k_tooth k) / 4 - cp_backlash p / (num_teeth (k_tooth k) / 2)).
Proof.
  intros N I. cbn zeta. unfold cyc_new, cyc_calc. cbn [cg_in cg_core k_tooth k_ho k_rp k_tooth_angle]. rewrite I.
  unfold tp_make. destruct (Rlt_dec (cp_teeth p) 0) as [L|L]; [|lra]. cbn [inside_teeth num_teeth].
  split; [reflexivity|]. split; [ring|]. split; [reflexivity|]. split; [field|]. field. lra.
Qed.

Example C74_cycloid_example : ~ cyc_consistent (cyc_new (ex_cyc (-20) 0.5 0.5 0 false)) /\ cyc_consistent (cyc_new (ex_cyc 20 0.5 0.5 0 true)).
Proof. rewrite !C74_cycloid by (cbn; lra). cbn. lra. Qed.
