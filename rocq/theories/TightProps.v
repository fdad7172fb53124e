(** Further facts about the assembled profile, the filleted flank, fillets at a joint of a chain, and the core gear:
    parts of C54, C91, C88 and C87 that no other theorem of theirs pins down. *)
From Coq Require Import Reals List ZArith Lra Bool Lia.
From Verif Require Import Num Vec Transform TransformProps Params Coords Interp Curve CurveLem Chain ChainLem ChainProps
  ArcLem ArcProps RefLines RefLinesProps Profile ProfileLem ProfileProps Fillet FilletProps FlankProps ReduceProps Recipe RecipeProps
  GearMath Tooth Wrapper Info Build Teeth ConeFlankProps LowerProps Report.
Import ListNotations.
Open Scope R_scope.

(** ** C54: the outside arc *)

(** [q] lies at distance [r] from the z axis, in the direction of [p] as seen from the axis. *)
Definition beside (r : R) (p q : vec) : Prop :=
  sqrt (vx p * vx p + vy p * vy p) * vx q = r * vx p /\ sqrt (vx p * vx p + vy p * vy p) * vy q = r * vy p.

Lemma yaw_arc r a yaw s z : c_eval (arc_curve r a (V 0 0 z) yaw 0 0 true) s = V (r * cos (yaw + a * s)) (r * sin (yaw + a * s)) z.
Proof.
  unfold arc_curve. rewrite arc_new_eval, cos_plus, sin_plus. unfold col1, col2.
  apply vec_eq; cbn; rewrite ?cos_0, ?sin_0; ring.
Qed.

(** The outside arc of a profile starts and ends level with the two ends of the tooth's curve, on the outside circle. *)
Theorem C54_outside_arc tooth rc pitch p p0 p1 z : assemble tooth rc pitch = Ok p ->
  arc_center (rc_o rc) = V 0 0 z -> let r := arc_radius (rc_o rc) in n_eval (pr_chain p) 0 = Ok p0 -> n_eval (pr_chain p) 1 = Ok p1 ->
  beside r p0 (c_eval (pr_ro p) 0) /\ beside r p1 (c_eval (pr_ro p) 1) /\
  forall s, exists t, c_eval (pr_ro p) s = V (r * cos t) (r * sin t) z.
Proof.
  intros EP AC r. unfold assemble in EP. cbv zeta in EP.
  destruct (n_eval tooth 1) as [pa1|]; cbn [bind] in EP; [|discriminate].
  destruct (n_eval tooth 0) as [pd1|]; cbn [bind] in EP; [|discriminate].
  match type of EP with bind (n_eval ?c 0) _ = _ => set (ch := c) in * end.
  destruct (n_eval ch 0) as [q0|] eqn:Q0; cbn [bind] in EP; [|discriminate].
  destruct (n_eval ch 1) as [q1|] eqn:Q1; cbn [bind] in EP; [|discriminate].
  apply Ok_inj in EP. subst p. unfold pr_chain. cbn [pr_rd pr_tooth pr_ra pr_mirror pr_ro]. fold ch. rewrite Q0, Q1.
  intros P0 P1. apply Ok_inj in P0, P1. subst q0 q1.
  rewrite AC. fold r.
  destruct (arctan2_cos_sin (vy p0) (vx p0)) as (C0 & S0). destruct (arctan2_cos_sin (vy p1) (vx p1)) as (C1 & S1).
  split; [|split].
  - unfold beside. rewrite yaw_arc. cbn [vx vy]. rewrite Rmult_0_r, Rplus_0_r. revert C0 S0. generalize (sqrt (vx p0 * vx p0 + vy p0 * vy p0)) (arctan2 (vy p0) (vx p0)). intros q b C S.
    split; [rewrite <- C|rewrite <- S]; ring.
  - unfold beside. rewrite yaw_arc. cbn [vx vy]. rewrite Rmult_1_r.
    replace (arctan2 (vy p0) (vx p0) + (arctan2 (vy p1) (vx p1) - arctan2 (vy p0) (vx p0))) with (arctan2 (vy p1) (vx p1)) by ring.
    revert C1 S1. generalize (sqrt (vx p1 * vx p1 + vy p1 * vy p1)) (arctan2 (vy p1) (vx p1)). intros q b C S.
    split; [rewrite <- C|rewrite <- S]; ring.
  - intros s. eexists. apply yaw_arc.
Qed.

Example C54_outside_arc_example : exists p p0, assemble ex_flank ex_circles (PI / 2) = Ok p /\ n_eval (pr_chain p) 0 = Ok p0 /\
  beside (arc_radius (rc_o ex_circles)) p0 (c_eval (pr_ro p) 0) /\ arc_radius (rc_o ex_circles) = 10.
Proof.
  assert (FR : List.Forall fresh (leaves ex_flank)) by (constructor; [apply new_fresh|constructor]).
  destruct (C53_profile ex_solver ex_flank ex_circles 0 0 (PI / 2) ex_flank FR (ex_trim _) ex_flank_ok ex_not_opposite)
    as (p & a & b & EP & E0 & E1 & _). unfold trim_reference_profile in EP. rewrite ex_trim in EP. cbn [bind] in EP.
  assert (AC : exists z, arc_center (rc_o ex_circles) = V 0 0 z) by (eexists; unfold arc_center, ex_circles, arc_curve; cbn [rc_o]; rewrite arc_new_shape; reflexivity).
  destruct AC as (z & AC). destruct (C54_outside_arc _ _ _ _ _ _ z EP AC E0 E1) as (B & _). exists p, a. split; [exact EP|]. split; [exact E0|]. split; [exact B|].
  unfold arc_radius, ex_circles, arc_curve. cbn [rc_o]. rewrite arc_new_shape. reflexivity.
Qed.

(** ** C88: filleting a joint by its index *)

(** The joint behind member [i] of a chain, as a fraction of its length. *)
Definition joint_at (l : list curve) (i : nat) : R := lsum (map c_length (firstn (S i) l)) / lsum (map c_length l).

(** [fillet_at_index] fillets at the place where member [index] ends (negative indices count from the end). *)
Theorem C88_at_index fs cs r (index : Z) : positive cs -> Forall (fun c => c_act c = true) cs ->
  let i := Z.to_nat (index mod Z.of_nat (length cs)) in let n := Chain true (map Prim cs) in
  (i < length cs)%nat /\ fillet_at_index fs n r index = fillet fs n r (joint_at cs i) /\
  forall d, n_eval n (joint_at cs i) = Ok (c_eval (nth i cs d) 1).
Proof.
  intros P A i n. destruct P as (NE & PF) eqn:PE. clear PE.
  assert (L0 : (0 < length cs)%nat) by (destruct cs; [contradiction|cbn; lia]).
  assert (HI : (i < length cs)%nat).
  { unfold i. pose proof (Z.mod_pos_bound index (Z.of_nat (length cs)) ltac:(lia)). lia. }
  assert (LA : length_array (map Prim cs) = map c_length cs).
  { unfold length_array. rewrite map_map. apply map_ext_in. intros c IN. rewrite Forall_forall in A. cbn. rewrite (A c IN). reflexivity. }
  split; [exact HI|]. split.
  - unfold fillet_at_index, n. destruct cs as [|c0 cs']; [contradiction|]. cbn [map]. rewrite <- (map_cons Prim).
    f_equal. unfold get_t_for_index. cbn [snd]. rewrite LA, map_length. fold i.
    rewrite portions_nth by (rewrite map_length; lia). unfold joint_at. rewrite firstn_map. reflexivity.
  - intros d. unfold n. assert (LV : leaves_of (map Prim cs) = cs) by (apply leaves_prims; exact A).
    rewrite C37_travel by (apply positive_wf_chain; rewrite LV; split; assumption). rewrite LV. f_equal.
    assert (TP : 0 < total cs).
    { unfold total. clear - NE PF. destruct cs as [|c r]; [contradiction|]. cbn. pose proof (Forall_inv PF).
      assert (0 <= lsum (map c_length r)); [|lra]. apply (total_nonneg r). eapply Forall_impl; [|exact (Forall_inv_tail PF)]. cbn. intros; lra. }
    unfold joint_at. fold (total cs). replace (_ / total cs * total cs) with (total (firstn (S i) cs)) by (unfold total; field; unfold total in TP; lra).
    rewrite <- (firstn_skipn (S i) cs) at 1.
    assert (P1 : positive (firstn (S i) cs)).
    { split; [destruct cs; [contradiction|discriminate]|]. apply Forall_forall. intros x IN. rewrite Forall_forall in PF. apply PF.
      rewrite <- (firstn_skipn (S i) cs). apply in_app_iff. left. exact IN. }
    rewrite walk_app_l; [|destruct P1 as (_ & P1); eapply Forall_impl; [|exact P1]; cbn; intros; lra|apply P1|right; lra].
    rewrite (walk_end' _ d) by exact P1. f_equal. clear - HI. clearbody i. revert cs HI. induction i as [|k IH]; intros [|c cs] H; cbn [length] in H; try lia.
    + reflexivity.
    + specialize (IH cs ltac:(lia)). cbn [firstn nth] in *. destruct cs; [cbn in H; lia|]. exact IH.
Qed.
(** The corner of two lines, filleted at its only inner joint, which is the middle. *)
Example C88_at_index_example : fillet_at_index corner_solver corner (1 / 4) (- 2) = fillet corner_solver corner (1 / 4) (1 / 2) /\
  n_eval corner (1 / 2) = Ok ORIGIN.
Proof.
  destruct corner_lengths as (L1 & L2).
  destruct (C88_at_index corner_solver corner_lines (1 / 4) (- 2)) as (_ & E & N).
  { split; [discriminate|]. constructor; [lra|]. constructor; [lra|]. constructor. }
  { repeat constructor. }
  change (Z.to_nat (-2 mod Z.of_nat (length corner_lines))) with 0%nat in *. fold corner in E, N.
  assert (J : joint_at corner_lines 0 = 1 / 2) by (unfold joint_at, corner_lines; cbn [firstn map lsum]; rewrite L1, L2; field). rewrite J in E, N.
  split; [exact E|]. rewrite (N dummy_curve). cbn [nth corner_lines]. rewrite line_eval. f_equal. apply vec_eq; vec_simpl; ring.
Qed.

(** ** C91: both fillets *)
Lemma tangent_arc_fresh n1 n2 r t1 t2 arc : tangent_arc n1 n2 r t1 t2 = Ok arc -> fresh arc /\ c_act arc = true.
Proof.
  unfold tangent_arc. destruct (calc_centers _ _ _ _ _) as [c|]; cbn [bind]; [|discriminate].
  destruct (n_eval n1 t1); cbn [bind]; [|discriminate]. destruct (n_eval n2 t2); cbn [bind]; [|discriminate].
  intros E. apply Ok_inj in E. subst arc. unfold from_2_point_center, arc_from_frame. cbv zeta.
  destruct (as_euler_zyx _) as [[yw pt] rl]. split; [apply new_fresh|reflexivity].
Qed.
Lemma calc_tangent_fresh fs n1 n2 r s1 s2 a : calc_tangent_arc fs n1 n2 r s1 s2 = Ok a -> fresh (af_arc a) /\ c_act (af_arc a) = true.
Proof.
  unfold calc_tangent_arc. destruct (fs_tan _ _ _ _ _ _ _) as [[ok x0] x1]. destruct (tangent_arc _ _ _ _ _) as [arc|] eqn:T; cbn [bind]; [|discriminate].
  intros E. apply Ok_inj in E. subst a. cbn [af_arc]. eapply tangent_arc_fresh, T.
Qed.
Lemma attempt_fresh fs tooth circle radius x0 x1 root k a : fillet_attempt fs tooth circle radius x0 x1 root k = Ok a ->
  fresh (af_arc a) /\ c_act (af_arc a) = true.
Proof. unfold fillet_attempt. cbv zeta. destruct root; apply calc_tangent_fresh. Qed.
Lemma root_fillet_end fs l pitch circle radius m d : usable (Chain true l) -> joined (leaves (Chain true l)) ->
  apply_fillet fs (Chain true l) pitch circle radius true = Ok m ->
  exists arc post, leaves m = arc :: post /\ post <> [] /\ c_eval (last post d) 1 = c_eval (last (leaves (Chain true l)) d) 1.
Proof.
  intros U J E.
  assert (W : exists t arc, fresh arc /\ c_act arc = true /\ with_start_arc (Chain true l) t arc = Ok m).
  { destruct (C89_branch _ _ _ _ _ _ _ E) as [(a & F & W)|(_ & S)].
    - destruct F as (x0 & x1 & _ & _ & T & _). destruct (try_arcs_in _ _ _ _ T) as (k & K). destruct (attempt_fresh _ _ _ _ _ _ _ _ _ K). eauto.
    - unfold sharp_fillet in S. cbv zeta in S. destruct (calc_tangent_arc _ _ _ _ _ _) as [a|] eqn:T; cbn [bind] in S; [|discriminate].
      destruct (calc_tangent_fresh _ _ _ _ _ _ _ T) as (F & A). exists (af_t2 a), (set_start_on (af_arc a) (1 / 2)).
      split; [apply set_start_fresh|]. split; [|exact S]. unfold set_start_on. rewrite update_act. exact A. }
  destruct W as (t & arc & F & A & W).
  destruct (start_cut (Chain true l) t d U J) as (m' & c & u & S & JM & N & P & L & FM & _).
  destruct (set_start_chain _ _ _ _ _ S) as (l' & ->).
  assert (FI : List.Forall fresh (leaves_of (Prim arc :: l'))).
  { change (leaves_of (Prim arc :: l')) with (leaves (Prim arc) ++ leaves (Chain true l')). apply Forall_app.
    split; [cbn [leaves]; rewrite A; repeat constructor; exact F|apply usable_fresh, FM]. }
  assert (MQ : m = Chain true (Prim arc :: l')).
  { unfold with_start_arc in W. rewrite S in W. cbn [bind] in W. apply Ok_inj in W. rewrite <- W. f_equal. unfold ch_insert.
    replace (insert_index (length l') 0) with 0%nat.
    + apply refresh_list, FI.
    + unfold insert_index. cbn. destruct (Z.of_nat (length l') <? 0)%Z eqn:Q; [apply Z.ltb_lt in Q; lia|reflexivity]. }
  exists arc, (leaves (Chain true l')). subst m. split; [|auto].
  change (leaves (Chain true (Prim arc :: l'))) with (leaves (Prim arc) ++ leaves (Chain true l')). cbn [leaves]. rewrite A. reflexivity.
Qed.

(** A root fillet is put on the flank that already has its tip fillet: it adds an arc in front and leaves the tip end where it was. *)
Theorem C91_both_fillets fs tooth rc tipf rootf pitch l m d : 0 < rootf ->
  filleted_flank fs tooth rc tipf 0 pitch = Ok (Chain true l) -> usable (Chain true l) -> joined (leaves (Chain true l)) ->
  filleted_flank fs tooth rc tipf rootf pitch = Ok m ->
  exists arc post, leaves m = arc :: post /\ post <> [] /\ c_eval (last post d) 1 = c_eval (last (leaves (Chain true l)) d) 1.
Proof.
  intros R T U J. unfold filleted_flank in *. destruct (if Rlt_dec 0 tipf then _ else _) as [t|] eqn:E; cbn [bind] in *; [|discriminate].
  destruct (Rlt_dec 0 0); [lra|]. destruct (Rlt_dec 0 rootf); [|contradiction]. apply Ok_inj in T. subst t. cbn [as_chain].
  apply root_fillet_end; assumption.
Qed.

(** The radial flank of C89_tip_example with an arc of radius 3 at the tip and one of radius 9/16 at the root. *)
Definition root_touch : R := arctan2 (- 1023) 64 / (2 * PI).
Definition both_solver : fsolver :=
  mkFs (fun n1 n2 r s1 s2 _ => if Req_EM_T r 3 then (true, s1 - 1 / 3, tip_touch - s2) else (true, s1 - root_touch, 1 / 2 / n_length n2 - s2))
       (fun _ _ _ _ => (true, 1, tip_touch)) (fun _ _ _ => (false, 0)).
Definition both_circles : ref_circles := mkRC (ref_circle (V 8 0 0)) (ref_circle (V 4 0 0)) (ref_circle (V 2 0 0)) (ref_circle (V 1 0 0)).

Lemma root_touch_cs : cos (2 * PI * root_touch) = 64 / 1025 /\ sin (2 * PI * root_touch) = - 1023 / 1025.
Proof.
  assert (P : 0 < PI) by apply PI_RGT_0. unfold root_touch. replace (2 * PI * (arctan2 (-1023) 64 / (2 * PI))) with (arctan2 (-1023) 64) by (field; lra).
  destruct (arctan2_cos_sin (- 1023) 64) as (C & S).
  assert (Q : sqrt (64 * 64 + -1023 * -1023) = 1025) by (replace (64 * 64 + -1023 * -1023) with (1025 * 1025) by ring; apply sqrt_square; lra).
  rewrite Q in C, S. lra.
Qed.
Lemma both_tip : exists l c arc, filleted_flank both_solver (Chain true long_radial) both_circles 3 0 PI = Ok (Chain true l) /\
  leaves (Chain true l) = [c; arc] /\ joined [c; arc] /\ usable (Chain true l) /\ c_length c = 2 /\ 0 < c_length arc < 13 /\
  (forall s, c_eval c s = smul (2 + 2 * s) (V (7 / 25) (- 24 / 25) 0)) /\ c_eval arc 1 = V (32 / 5) (- 24 / 5) 0.
Proof.
  pose proof long_radial_centers as CC. destruct (ref_circle_at 8 0 ltac:(lra)) as (EV & _). destruct tip_touch_cs as (C & S).
  destruct (calc_centers_inv _ _ _ _ _ _ CC) as (p1 & p2 & d1 & d2 & P1 & P2 & D1 & D2).
  destruct (C88_tangent_arc _ _ _ _ _ _ _ _ _ _ P1 P2 D1 D2 (Rgt_not_eq 3 0 ltac:(lra)) CC) as (arc & th & TA & E0 & E1 & _ & _ & _ & TH & _ & LN & FA & AA).
  cbn [n_eval] in P2. pose proof P1 as P1'. apply Ok_inj in P2. rewrite EV, C, S in P2.
  unfold long_radial in P1. rewrite one_line_eval in P1 by exact long_radial_ne. apply Ok_inj in P1.
  assert (A0 : c_eval arc 0 = V (28 / 25) (- 96 / 25) 0) by (rewrite E0, <- P1; apply vec_eq; vec_simpl; field).
  assert (A1 : c_eval arc 1 = V (32 / 5) (- 24 / 5) 0) by (rewrite E1, <- P2; apply vec_eq; cbn [vx vy vz]; field).
  destruct (one_line_usable _ _ long_radial_ne) as (U & J). fold long_radial in U, J.
  destruct (exact_arc _ _ _ _ _ _ _ TA (Rgt_not_eq 3 0 ltac:(lra)) CC) as (_ & _ & _ & _ & LA & NA).
  assert (LB : c_length arc < 13) by (rewrite LN, Rabs_right by lra; pose proof PI_4; lra).
  destruct U as (UA & UW & UF).
  destruct (set_end_spec (Chain true long_radial) UA UW (usable_fresh _ UF) false (1 / 3)) as (pre & c & post & u & m & L & SE & L' & EC & TU & _).
  change (leaves (Chain true long_radial)) with [line_curve (V (14 / 25) (- 48 / 25) 0) (V (56 / 25) (- 192 / 25) 0) true] in L.
  destruct pre as [|x pre]; [|destruct pre; discriminate]. cbn [app] in L.
  assert (EQC : c = line_curve (V (14 / 25) (- 48 / 25) 0) (V (56 / 25) (- 192 / 25) 0) true) by congruence. clear L.
  assert (LC : c_length c = 6). { rewrite EQC, line_curve_length. apply norm_eq; [lra|vec_simpl; field]. }
  assert (NL : n_length (Chain true long_radial) = 6).
  { unfold long_radial. rewrite one_line_length. rewrite EQC, line_curve_length in LC. exact LC. }
  assert (UU : u = 1 / 3). { rewrite LC, NL in TU. unfold total in TU. cbn [map lsum] in TU. lra. }
  destruct (set_end_chain _ _ _ _ _ SE) as (l' & ->). cbn [app] in L'.
  set (c1 := set_end_on c u) in *.
  assert (F1 : fresh c1) by apply set_end_fresh.
  assert (A_1 : c_act c1 = true) by (unfold c1, set_end_on; rewrite update_act, EQC; reflexivity).
  assert (SH : c_shape c1 = SLine (V (14 / 25) (- 48 / 25) 0) (V (56 / 25) (- 192 / 25) 0)) by (unfold c1, set_end_on; rewrite update_shape, EQC; reflexivity).
  assert (T01 : c_t0 c1 = 0 /\ c_t1 c1 = 1 / 3).
  { split; [unfold c1, set_end_on; rewrite update_t0, EQC; reflexivity|]. transitivity (s2t c u); [unfold c1, set_end_on; rewrite update_t1; reflexivity|]. rewrite EQC.
    set (k := line_curve _ _ true). destruct (fresh_line k _ _ (new_fresh _ _ _ _) eq_refl) as (T & S' & _). rewrite (s2t_two_points k u S' T).
    change (c_t0 k) with 0. change (c_t1 k) with 1. lra. }
  destruct T01 as (T0 & T1).
  assert (EV1 : forall s, c_eval c1 s = smul (2 + 2 * s) (V (7 / 25) (- 24 / 25) 0)).
  { intros s. rewrite (line_fresh_eval c1 _ _ s F1 SH), T0, T1. apply vec_eq; vec_simpl; field. }
  assert (LC1 : c_length c1 = 2).
  { destruct (fresh_line c1 _ _ F1 SH) as (_ & _ & ->). rewrite T0, T1, Rabs_right by lra.
    replace (norm _) with 6; [field|]. symmetry. apply norm_eq; [lra|vec_simpl; field]. }
  assert (LV : leaves (Chain true (l' ++ [Prim arc])) = [c1; arc]).
  { change (leaves (Chain true ?x)) with (leaves_of x) in *. rewrite leaves_app, L'.
    change (leaves_of [Prim arc]) with (leaves (Prim arc) ++ []). cbn [leaves]. rewrite AA. reflexivity. }
  exists (l' ++ [Prim arc]), c1, arc. split.
  { unfold filleted_flank. destruct (Rlt_dec 0 3); [|lra]. destruct (Rlt_dec 0 0); [lra|]. cbn [as_chain both_circles rc_a].
    unfold apply_fillet. cbn [both_solver fs_meet andb].
    assert (Q : angle_check PI (c_eval (ref_circle (V 8 0 0)) tip_touch) = true).
    { apply angle_check_iff, fourth_quadrant; rewrite EV, C, S; cbn [vx vy]; lra. }
    rewrite Q. cbn [try_arcs]. unfold fillet_attempt. cbv zeta. unfold calc_tangent_arc. cbn [both_solver fs_tan].
    destruct (Req_EM_T 3 3); [|lra].
    match goal with |- context [tangent_arc _ _ 3 ?a ?b] => replace a with (1 / 3) by ring; replace b with tip_touch by ring end.
    rewrite TA. cbn [bind af_ok af_arc af_t1].
    assert (Q0 : angle_check PI (c_eval arc 0) = true) by (apply angle_check_iff, fourth_quadrant; rewrite A0; cbn [vx vy]; lra).
    assert (Q1 : angle_check PI (c_eval arc 1) = true) by (apply angle_check_iff, fourth_quadrant; rewrite A1; cbn [vx vy]; lra).
    rewrite Q0, Q1. cbn [andb]. unfold with_end_arc. rewrite SE. cbn [bind]. f_equal. f_equal. apply refresh_list.
    change (leaves_of ?x) with (leaves (Chain true x)). rewrite LV. repeat constructor; assumption. }
  split; [exact LV|]. split.
  { split; [|exact I]. rewrite EV1, A0. apply vec_eq; vec_simpl; field. }
  split; [|auto 10].
  split; [|split].
  - apply active_leaves. rewrite LV. discriminate.
  - apply positive_wf_chain. change (leaves_of ?x) with (leaves (Chain true x)). rewrite LV. split; [discriminate|]. repeat constructor; lra.
  - rewrite LV. constructor; [split; [exact F1|unfold c1, set_end_on; rewrite update_ndiv, EQC; exact NDIV_2]|].
    constructor; [split; assumption|constructor].
Qed.
Example C91_both_fillets_example : exists m arc post, filleted_flank both_solver (Chain true long_radial) both_circles 3 (9 / 16) PI = Ok m /\
  leaves m = arc :: post /\ c_eval arc 0 = V (128 / 1025) (- 2046 / 1025) 0 /\ c_eval arc 1 = V (7 / 10) (- 12 / 5) 0 /\
  forall d, c_eval (last post d) 1 = V (32 / 5) (- 24 / 5) 0.
Proof.
  destruct both_tip as (l & c & tip & FT & LV & J & U & LC & LT & EC & ET). set (n := Chain true l) in *.
  assert (NL : n_length n = 2 + c_length tip).
  { transitivity (total (leaves n)); [symmetry; symmetry; apply length_array_leaves|]. rewrite LV. unfold total. cbn [map lsum]. rewrite LC. ring. }
  set (T := 2 + c_length tip) in *. assert (TB : 2 < T < 15) by (unfold T; lra).
  assert (EN : forall s, s * T <= 2 -> n_eval n s = Ok (smul (2 + s * T) (V (7 / 25) (- 24 / 25) 0))).
  { intros s H. unfold n. rewrite C37_travel by (apply U). change (leaves_of l) with (leaves n). rewrite LV. f_equal.
    replace (total [c; tip]) with T by (unfold total, T; cbn [map lsum]; rewrite LC; ring).
    rewrite walk_cons by discriminate. rewrite LC. destruct (Rle_dec (s * T) 2); [|contradiction]. unfold local. rewrite LC.
    destruct (Req_EM_T 2 0); [lra|]. rewrite EC. f_equal. field. }
  assert (DN : n_derivative n (1 / 2 / T) = Ok (smul T (V (7 / 25) (- 24 / 25) 0))).
  { assert (Q : 1 / 2 / T * T = 1 / 2) by (field; lra).
    assert (DT : 0 < DELTA * T < 1) by (unfold DELTA; split; [apply Rmult_lt_0_compat|]; lra).
    unfold n_derivative. rewrite !EN by (rewrite ?Rmult_plus_distr_r, ?Rmult_minus_distr_r, Q; lra). cbn [bind]. f_equal.
    rewrite ?Rmult_plus_distr_r, ?Rmult_minus_distr_r, Q. unfold DELTA. apply vec_eq; vec_simpl; field. }
  destruct (ref_circle_at 2 0 ltac:(lra)) as (EV & _). destruct root_touch_cs as (C & S).
  set (ce := smul (41 / 16) (V (64 / 1025) (- 1023 / 1025) 0)).
  assert (CC : calc_centers (Prim (ref_circle (V 2 0 0))) n (9 / 16) root_touch (1 / 2 / T) = Ok (ce, ce)).
  { unfold calc_centers. rewrite DN, EN by (apply Rle_trans with (1 / 2); [right; field|]; lra). cbn [n_eval bind].
    unfold n_derivative. cbn [n_eval bind]. rewrite !EV.
    assert (P : 0 < PI) by apply PI_RGT_0. set (y := 2 * PI * DELTA).
    replace (2 * PI * (root_touch + DELTA)) with (2 * PI * root_touch + y) by (unfold y; ring).
    replace (2 * PI * (root_touch - DELTA)) with (2 * PI * root_touch - y) by (unfold y; ring).
    rewrite cos_plus, cos_minus, sin_plus, sin_minus, C, S.
    assert (SY : 0 < sin y) by (apply sin_gt_0; unfold y, DELTA; lra).
    match goal with |- centers_of _ _ ?v ?w _ = _ =>
      replace v with (smul (2 * sin y / DELTA) (V (1023 / 1025) (64 / 1025) 0))
        by (unfold DELTA; generalize (sin y) (cos y); clear; intros a b; apply vec_eq; vec_simpl; field) end.
    unfold centers_of. assert (DP : 0 < DELTA) by (unfold DELTA; lra).
    rewrite !normalize_r_axis; try lra; try (apply Rdiv_lt_0_compat; lra); try (vec_simpl; field). cbn [bind].
    replace (cross (V (1023 / 1025) (64 / 1025) 0) (V (7 / 25) (- 24 / 25) 0)) with (smul (40 / 41) (smul (-1) OUT)) by (apply vec_eq; vec_simpl; field).
    rewrite normalize_r_axis; try lra; try (vec_simpl; ring). cbn [bind]. f_equal. unfold ce. f_equal; apply vec_eq; vec_simpl; field; lra. }
  destruct (calc_centers_inv _ _ _ _ _ _ CC) as (p1 & p2 & d1 & d2 & P1 & P2 & D1 & D2).
  destruct (C88_tangent_arc _ _ _ _ _ _ _ _ _ _ P1 P2 D1 D2 (Rgt_not_eq (9 / 16) 0 ltac:(lra)) CC) as (arc & th & TA & E0 & E1 & _ & _ & _ & _ & _ & _ & FA & AA).
  cbn [n_eval] in P1. apply Ok_inj in P1. rewrite EV, C, S in P1.
  pose proof P2 as P2'. rewrite EN in P2 by (apply Rle_trans with (1 / 2); [right; field|]; lra). apply Ok_inj in P2.
  assert (A0 : c_eval arc 0 = V (128 / 1025) (- 2046 / 1025) 0) by (rewrite E0, <- P1; apply vec_eq; cbn [vx vy vz]; field).
  assert (A1 : c_eval arc 1 = V (7 / 10) (- 12 / 5) 0) by (rewrite E1, <- P2; apply vec_eq; vec_simpl; field; lra).
  rewrite <- LV in J.
  destruct (start_arc_ok l (1 / 2 / T) arc dummy_curve U J FA AA) as (m & post & W & LM & _ & _ & _ & LE).
  { fold n. rewrite P2', E1. reflexivity. }
  assert (FF : filleted_flank both_solver (Chain true long_radial) both_circles 3 (9 / 16) PI = Ok m).
  { unfold filleted_flank in FT |- *. destruct (Rlt_dec 0 0); [lra|]. destruct (Rlt_dec 0 (9 / 16)); [|lra].
    destruct (if Rlt_dec 0 3 then _ else _) as [t|]; cbn [bind] in FT |- *; [|discriminate]. apply Ok_inj in FT. subst t.
    cbn [n as_chain both_circles rc_d]. fold n. unfold apply_fillet. cbn [both_solver fs_meet andb].
    assert (Q : angle_check PI (c_eval (ref_circle (V 2 0 0)) tip_touch) = true).
    { destruct tip_touch_cs as (C' & S'). apply angle_check_iff, fourth_quadrant; rewrite EV, C', S'; cbn [vx vy]; lra. }
    rewrite Q. cbn [try_arcs]. unfold fillet_attempt. cbv zeta. unfold calc_tangent_arc. cbn [both_solver fs_tan].
    destruct (Req_EM_T (9 / 16) 3); [lra|].
    match goal with |- context [tangent_arc _ _ (9 / 16) ?a ?b] => replace a with root_touch by ring; replace b with (1 / 2 / T) by (rewrite NL; ring) end.
    rewrite TA. cbn [bind af_ok af_arc af_t2].
    assert (Q0 : angle_check PI (c_eval arc 0) = true) by (apply angle_check_iff, fourth_quadrant; rewrite A0; cbn [vx vy]; lra).
    assert (Q1 : angle_check PI (c_eval arc 1) = true) by (apply angle_check_iff, fourth_quadrant; rewrite A1; cbn [vx vy]; lra).
    rewrite Q0, Q1. cbn [andb]. exact W. }
  exists m, arc, post. split; [exact FF|]. split; [exact LM|]. split; [exact A0|]. split; [exact A1|]. intros d.
  assert (RP : 0 < 9 / 16) by lra. destruct (C91_both_fillets _ _ _ _ _ _ _ _ d RP FT U J FF) as (arc' & post' & LM' & _ & K).
  rewrite LM in LM'. injection LM' as <- <-. rewrite K. fold n. rewrite LV. exact ET.
Qed.

(** ** C87: a new gear and its pitch sphere *)

(** The pitch radius reported for a new gear is the distance of the pitch point of its tooth from the axis, and the gear stands upright
    at the origin. *)
Theorem C87_new_gear tp m gam L n : num_teeth tp = IZR n -> (0 < n)%Z -> 0 < m ->
  let c := cg_make tp m gam L in
  placed c n /\ cg_rp c = sp_rp c /\ g_center (cg_trf c) = ORIGIN /\ g_z_axis (cg_trf c) = OUT /\
  apply_gear_transform (smul (num_teeth tp / 2) RIGHT) (cg_trf c) = smul (cg_rp c) RIGHT.
Proof.
  intros N NP M c. split; [|split; [|split; [reflexivity|split; [reflexivity|]]]].
  - constructor; cbn; try assumption; try reflexivity. apply rotation_I.
  - unfold cg_rp, sp_rp. cbn. field.
  - unfold c, cg_make. cbn [cg_trf]. rewrite apply_gear_transform_eq. unfold cg_rp. cbn [cg_teeth cg_module g_center g_orient g_scale g_angle].
    apply vec_eq; cbn; rewrite ?cos_0, ?sin_0; field.
Qed.
(** The reported center_sphere is the apex of the pitch cone when the cone narrows upwards; all points of the pitch circle are then at
    the distance R from it.  For a negative cone angle it is the mirror image of the apex in the plane of the pitch circle. *)
Theorem C87_center_sphere c n : placed c n -> let g := cg_cone_angle c 0 / 2 in
  (0 < sin g -> cg_center_sphere c = sp_apex c g) /\
  (sin g < 0 -> cg_center_sphere c = vsub (smul 2 (g_center (cg_trf c))) (sp_apex c g)) /\
  (sin g <> 0 -> forall x, dot x x = 1 -> dot x (g_z_axis (cg_trf c)) = 0 -> norm (g_z_axis (cg_trf c)) = 1 ->
     norm (vsub (vadd (g_center (cg_trf c)) (smul (sp_rp c) x)) (cg_center_sphere c)) = cg_R c).
Proof.
  intros P g. assert (NP : 0 < num_teeth (cg_teeth c)) by (rewrite (pl_teeth _ _ P); apply IZR_lt, (pl_n _ _ P)).
  pose proof (pl_module _ _ P) as M.
  assert (RP : 0 < sp_rp c) by (unfold sp_rp; apply Rmult_lt_0_compat; [apply Rmult_lt_0_compat|]; lra).
  assert (G : gamma (cg_cone c) = g) by reflexivity.
  assert (RR : sin g <> 0 -> cg_R c = sp_rp c / Rabs (sin g)).
  { intros S. unfold cg_R, c_R. rewrite G. cbn [cg_cone base_radius c_trf t_default t_scale]. rewrite Rmult_1_r.
    unfold Rdiv at 1. rewrite Rabs_mult, Rabs_inv, (Rabs_right (num_teeth (cg_teeth c) / 2)) by lra. unfold sp_rp.
    pose proof (Rabs_pos_lt _ S). field. lra. }
  assert (CS : sin g <> 0 -> cg_center_sphere c = vadd (g_center (cg_trf c)) (smul (sp_rp c / Rabs (sin g) * cos g) (g_z_axis (cg_trf c)))).
  { intros S. unfold cg_center_sphere. rewrite G, (RR S). reflexivity. }
  split; [|split].
  - intros S. rewrite CS by lra. rewrite Rabs_right by lra. unfold sp_apex. do 2 f_equal. field. lra.
  - intros S. rewrite CS by lra. rewrite Rabs_left by lra. unfold sp_apex.
    replace (sp_rp c / - sin g * cos g) with (- (sp_rp c * cos g / sin g)) by (field; lra).
    generalize (sp_rp c * cos g / sin g) (g_center (cg_trf c)) (g_z_axis (cg_trf c)). clear. intros k a b. destruct a, b. apply vec_eq; vec_simpl; ring.
  - intros S x X XZ ZN. rewrite CS, RR by exact S. set (z := g_z_axis (cg_trf c)) in *. pose proof (Rabs_pos_lt _ S) as A.
    assert (ZZ : dot z z = 1) by (rewrite <- norm_sqr, ZN; ring).
    replace (vsub _ _) with (vsub (smul (sp_rp c) x) (smul (sp_rp c / Rabs (sin g) * cos g) z)).
    2: { generalize (g_center (cg_trf c)) (sp_rp c) (sp_rp c / Rabs (sin g) * cos g). clear. intros a k h. destruct a, x, z. apply vec_eq; vec_simpl; ring. }
    apply norm_eq; [unfold Rdiv; apply Rmult_le_pos; [lra|left; apply Rinv_0_lt_compat, A]|].
    replace (dot _ _) with (sp_rp c * sp_rp c * dot x x - 2 * (sp_rp c * (sp_rp c / Rabs (sin g) * cos g)) * dot x z +
      (sp_rp c / Rabs (sin g) * cos g) * (sp_rp c / Rabs (sin g) * cos g) * dot z z).
    2: { generalize (sp_rp c) (sp_rp c / Rabs (sin g) * cos g). clear. intros k h. destruct x, z. unfold dot. vec_simpl. ring. }
    rewrite X, XZ, ZZ.
    assert (Q : Rabs (sin g) * Rabs (sin g) = 1 - cos g * cos g).
    { rewrite <- Rabs_mult, Rabs_right by (apply Rle_ge, Rle_0_sqr). pose proof (sin2_cos2 g) as T. unfold Rsqr in T. lra. }
    replace (sp_rp c * sp_rp c) with (sp_rp c * sp_rp c * (Rabs (sin g) * Rabs (sin g)) / (Rabs (sin g) * Rabs (sin g))) at 1 by (field; lra).
    rewrite Q at 1. field_simplify_eq; [|lra]. try (rewrite ?Q); ring.
Qed.
(** A bevel gear with 20 teeth and half cone angle 1/10, as made by the constructor. *)
Example C87_center_sphere_example : let c := cg_make (mkTP 20 0 false) 2 (1 / 10) 5 in
  cg_center_sphere c = V 0 0 (20 * cos (1 / 10) / sin (1 / 10)) /\ cg_R c = 20 / sin (1 / 10).
Proof.
  intros c. assert (S0 : 0 < sin (1 / 10)) by (apply sin_gt_0; pose proof PI_gt_2; lra). pose proof (SIN_bound (1 / 10)) as SB.
  assert (A : cg_cone_angle c 0 = 2 * (1 / 10)).
  { apply (C10_curve_cone c 0); cbn [c cg_make cg_height cg_gamma cg_teeth num_teeth]; unfold DELTA; pose proof PI_gt_2; try lra.
    exists 100000%Z. lra. }
  destruct (C87_new_gear (mkTP 20 0 false) 2 (1 / 10) 5 20 eq_refl ltac:(lia) ltac:(lra)) as (P & _ & CE & ZA & _). fold c in P, CE, ZA.
  destruct (C87_center_sphere c 20 P) as (K & _ & D). rewrite A in K, D. replace (2 * (1 / 10) / 2) with (1 / 10) in K, D by field.
  split.
  - rewrite (K S0). unfold sp_apex. rewrite CE, ZA. unfold sp_rp. cbn [c cg_make cg_module cg_teeth num_teeth].
    apply vec_eq; vec_simpl; field; lra.
  - unfold cg_R, c_R, gamma. cbn [cg_cone cone_angle base_radius c_trf t_default t_scale]. rewrite A. cbn [c cg_make cg_module cg_teeth num_teeth].
    replace (2 * (1 / 10) / 2) with (1 / 10) by field. rewrite Rabs_right; [field; lra|]. apply Rle_ge. rewrite Rmult_1_r.
    unfold Rdiv at 1. apply Rmult_le_pos; [lra|left; apply Rinv_0_lt_compat, S0].
Qed.

(** ** C97: the depth of a bevel flank *)

(** Without undercut the flank of a bevel gear is cut off at the depth 1.2, whatever dedendum was asked for. *)
Theorem C97_bevel_depth ts g z : ip_undercut (ig_in g) = false -> k_cone (ig_core g) <> 0 ->
  let k := ig_core g in let lm := mkLim 1 (12 / 10) in let c := octoid_flank ts (k_rp k) (k_alpha k) (ig_pia g z) (k_cone k) in
  let a := ts_plane ts EQUALITY (Prim c) (lower_normal (k_rp k) (k_cone k) lm) (lower_apex (k_rp k) (k_cone k)) 0 in
  fst a = true -> exists f, ig_tooth ts g z = Ok (Prim f) /\ c_eval f 0 = c_eval c (snd a) /\ c_eval f 1 = c_eval c 1.
Proof.
  intros U N k lm c a K. unfold ig_tooth. fold k. rewrite U. destruct (Req_EM_T (k_cone k) 0); [contradiction|].
  unfold octoid_tooth, check_lower. fold c. destruct (Req_EM_T (k_cone k) 0); [contradiction|].
  assert (F : fresh c) by (unfold c, octoid_flank; destruct (Req_EM_T (k_cone k) 0); [contradiction|apply set_end_fresh]).
  assert (ND : (2 <= c_ndiv c)%nat).
  { unfold c, octoid_flank. destruct (Req_EM_T (k_cone k) 0); [contradiction|]. unfold set_end_on. rewrite update_ndiv. exact NDIV_2. }
  assert (A : c_act c = true).
  { unfold c, octoid_flank. destruct (Req_EM_T (k_cone k) 0); [contradiction|]. unfold set_end_on. rewrite update_act. reflexivity. }
  destruct (C97_cone_found ts (k_rp k) (k_cone k) lm c F ND A K) as (f & E & E0 & E1).
  exists f. split; [f_equal; exact E|auto].
Qed.
Definition with_dedendum (p : iparam) (d : R) : iparam :=
  mkIP (ip_teeth p) (ip_height p) (ip_helix p) (ip_cone p) (ip_center p) (ip_angle p) (ip_module p) (ip_undercut p) (ip_root_fillet p)
    (ip_tip_fillet p) (ip_tip_trunc p) (ip_shift p) (ip_add p) d (ip_alpha p) (ip_backlash p) (ip_crown p) (ip_inside p) (ip_zanchor p).
Theorem C97_user_dedendum_refuted ts p d z : ip_undercut p = false -> k_cone (ig_core (ig_new p)) <> 0 ->
  ig_tooth ts (ig_new (with_dedendum p d)) z = ig_tooth ts (ig_new p) z.
Proof.
  intros U N.
  assert (E : ip_undercut (ig_in (ig_new (with_dedendum p d))) = false /\ ip_undercut (ig_in (ig_new p)) = false /\
    k_rp (ig_core (ig_new (with_dedendum p d))) = k_rp (ig_core (ig_new p)) /\
    k_alpha (ig_core (ig_new (with_dedendum p d))) = k_alpha (ig_core (ig_new p)) /\
    k_cone (ig_core (ig_new (with_dedendum p d))) = k_cone (ig_core (ig_new p)) /\
    ig_pia (ig_new (with_dedendum p d)) z = ig_pia (ig_new p) z).
  { destruct p. unfold ig_pia, ig_new, ip_normalise, with_dedendum in *. cbn in *.
    match goal with |- context [Rlt_dec ?a ?b] => destruct (Rlt_dec a b) end; cbn; auto 10. }
  destruct E as (U1 & U2 & R1 & A1 & C1 & P1). unfold ig_tooth. rewrite U1, U2, R1, A1, C1, P1.
  destruct (Req_EM_T _ 0); [contradiction|reflexivity].
Qed.
(** A bevel gear with 20 teeth: dedendum 1.2 or 3/2 give the same flank but different dedendum circles. *)
Example C97_user_dedendum_example ts : let p := mkIP 20 5 0 (PI / 2) ORIGIN 0 1 false 0 0 0 0 1 (12 / 10) (PI / 9) 0 0 false 0 in
  ig_tooth ts (ig_new (with_dedendum p (3 / 2))) 0 = ig_tooth ts (ig_new p) 0 /\
  k_hd (ig_core (ig_new (with_dedendum p (3 / 2)))) <> k_hd (ig_core (ig_new p)).
Proof.
  intros p. assert (N : ig_new p = mkIG p (calc_params p)).
  { unfold ig_new, ip_normalise, p. cbn. match goal with |- context [Rlt_dec ?a ?b] => destruct (Rlt_dec a b) end; [lra|reflexivity]. }
  split.
  - apply C97_user_dedendum_refuted; [reflexivity|]. rewrite N. cbn. pose proof PI_RGT_0. lra.
  - rewrite N. unfold ig_new, ip_normalise, with_dedendum, p. cbn. match goal with |- context [Rlt_dec ?a ?b] => destruct (Rlt_dec a b) end; cbn; lra.
Qed.

(** ** C91: which fillet goes where *)
(** A gear with both fillets: the tip fillet's radius is used at the tip circle, then the root fillet's radius at the root
    circle of the resulting flank, and nothing else is cut from the flank. *)
Theorem C91_gear sv fs ts g z tooth : ig_tooth ts g z = Ok tooth -> 0 < ip_tip_fillet (ig_in g) -> 0 < ip_root_fillet (ig_in g) ->
  let k := ig_core g in let pitch := 2 * PI / ip_teeth (ig_in g) in
  let rc := reduced_circles fs tooth (generate_reference_circles (k_rp k) (k_ha k) (k_hd k) (k_ho k) (k_cone k) (k_rp k))
              (ip_tip_trunc (ig_in g)) (k_cone k) (k_rp k) in
  (forall e, apply_fillet fs (as_chain tooth) pitch (rc_a rc) (ip_tip_fillet (ig_in g)) false = Err e -> ig_profile sv fs ts g z = Err e) /\
  (forall t1, apply_fillet fs (as_chain tooth) pitch (rc_a rc) (ip_tip_fillet (ig_in g)) false = Ok t1 ->
     (forall e, apply_fillet fs (as_chain t1) pitch (rc_d rc) (ip_root_fillet (ig_in g)) true = Err e -> ig_profile sv fs ts g z = Err e) /\
     (forall t2, apply_fillet fs (as_chain t1) pitch (rc_d rc) (ip_root_fillet (ig_in g)) true = Ok t2 -> flank_ok t2 -> List.Forall fresh (leaves t2) ->
        not_opposite t2 pitch -> exists p, ig_profile sv fs ts g z = Ok p /\ pr_tooth p = t2 /\ pr_pitch p = pitch)).
Proof.
  intros T HT HR k pitch rc. unfold ig_profile. rewrite T. cbn [bind]. fold k. fold pitch. unfold generate_reference_profile. fold rc.
  unfold filleted_flank. destruct (Rlt_dec 0 (ip_tip_fillet (ig_in g))); [|contradiction].
  destruct (Rlt_dec 0 (ip_root_fillet (ig_in g))); [|contradiction]. split.
  - intros e E. rewrite E. reflexivity.
  - intros t1 E1. rewrite E1. cbn [bind]. split.
    + intros e E. rewrite E. reflexivity.
    + intros t2 E2 FO FR NO. rewrite E2. cbn [bind]. unfold trim_reference_profile. rewrite trim_with_fillets by assumption. cbn [bind].
      destruct (assemble_ok t2 rc pitch FO FR NO) as (p & EA & AS). rewrite EA. cbn [bind]. eexists. split; [reflexivity|].
      cbn [pr_tooth pr_pitch]. split; [apply (as_tooth _ _ _ AS)|apply (as_pitch _ _ _ AS)].
Qed.
Example C91_gear_example sv fs ts : let g := ig_new (mkIP 8 3 0 0 ORIGIN 0 2 false (1 / 4) (1 / 2) 0 0 1 1 (PI / 6) 0 0 false 0) in
  exists tooth, ig_tooth ts g 0 = Ok tooth /\
  forall e, apply_fillet fs (as_chain tooth) (2 * PI / 8) (rc_a (generate_reference_circles 4 1 1 2 0 4)) (1 / 2) false = Err e ->
    ig_profile sv fs ts g 0 = Err e.
Proof.
  cbv zeta. set (q := mkIP 8 3 0 0 ORIGIN 0 2 false (1 / 4) (1 / 2) 0 0 1 1 (PI / 6) 0 0 false 0).
  assert (NN : ip_normalise q = q) by (unfold ip_normalise, q; cbn [ip_teeth]; destruct (Rlt_dec 8 0); [lra|reflexivity]).
  assert (EI : ig_in (ig_new q) = q) by (unfold ig_new; rewrite NN; reflexivity).
  assert (KC : k_cone (ig_core (ig_new q)) = 0) by (unfold ig_new; rewrite NN; reflexivity).
  assert (KR : k_rp (ig_core (ig_new q)) = 4) by (unfold ig_new; rewrite NN; cbn; lra).
  assert (KH : k_ha (ig_core (ig_new q)) = 1 /\ k_hd (ig_core (ig_new q)) = 1 /\ k_ho (ig_core (ig_new q)) = 2)
    by (unfold ig_new; rewrite NN; cbn; repeat split; lra).
  destruct KH as (KA & KD & KO).
  assert (T : exists tooth, ig_tooth ts (ig_new q) 0 = Ok tooth).
  { unfold ig_tooth. rewrite EI, KC. cbn [q ip_undercut]. destruct (Req_EM_T 0 0); [|contradiction]. eauto. }
  destruct T as (tooth & T). exists tooth. split; [exact T|].
  destruct (C91_gear sv fs ts (ig_new q) 0 tooth T) as (H & _); [rewrite EI; cbn; lra|rewrite EI; cbn; lra|].
  rewrite EI, KC, KR, KA, KD, KO in H. cbn [q ip_teeth ip_tip_fillet ip_tip_trunc] in H.
  unfold reduced_circles in H. destruct (Rlt_dec 0 0); [lra|]. exact H.
Qed.
