(** Properties C90 (tip reduction) and C91 (the profile with fillets and tip reduction). *)
From Coq Require Import Reals List ZArith Lra Lia Psatz Bool.
From Verif Require Import Num Vec Transform TransformProps Params Coords CoordsProps Interp Curve CurveLem CurveProps
  ArcLem ArcProps Chain ChainLem ChainProps GearMath RefLines RefLinesProps Profile ProfileLem ProfileProps Fillet FilletProps
  FlankProps.
Import ListNotations.
Open Scope R_scope.

(** ** C90: specification *)
(** One of the four searches, started at 0.1, 0.3667, 0.6333 and 0.9 of the flank's length, found a point of the flank
    in the symmetry plane of the tooth, [r] is its height, above the dedendum [rdh]. *)
Definition crossing (fs : fsolver) (tooth : node) (ca br rdh r : R) : Prop :=
  exists g x, (g = 1 / 10 \/ g = 11 / 30 \/ g = 19 / 30 \/ g = 9 / 10) /\ fs_plane fs tooth (V 0 1 0) g = (true, x) /\
    r = vx (polar_transform ca br (n_point tooth x)) /\ rdh < r.
(** Heights measured by [polar_transform]: radii for cylindrical gears, arc lengths for bevel gears (C13). *)
Definition at_height (ca br h : R) (p : vec) : Prop := vx (polar_transform ca br p) = h.
(** Heights between the axis and, for bevel gears, the poles of the sphere. *)
Definition proper_height (ca br h : R) : Prop :=
  (ca = 0 -> 0 < h) /\ (ca <> 0 -> Rabs h < PI / 2 * c_R (polar_cone ca br)).

(** ** C90: lemmas *)
Lemma in_tip_radii fs tooth ca br rdh r : In r (tip_radii fs tooth ca br rdh) <-> crossing fs tooth ca br rdh r.
Proof.
  unfold tip_radii. rewrite in_flat_map. split.
  - intros (g & G & H). destruct (fs_plane fs tooth UP g) as [ok x] eqn:E.
    destruct ok; cbn [andb] in H; [|destruct H].
    unfold lt_b in H. destruct (Rlt_dec _ _) as [L|L]; [|destruct H]. destruct H as [<-|[]].
    exists g, x. split; [|auto]. cbn in G. intuition.
  - intros (g & x & G & E & -> & L). exists g. split; [cbn; intuition|].
    change (V 0 1 0) with UP in E. rewrite E. cbn [andb]. unfold lt_b. destruct (Rlt_dec _ _); [left; reflexivity|contradiction].
Qed.

Lemma fold_min rs r : In (fold_left Rmin rs r) (r :: rs) /\ forall x, In x (r :: rs) -> fold_left Rmin rs r <= x.
Proof.
  revert r. induction rs as [|y rs IH]; intros r; cbn [fold_left].
  - split; [left; reflexivity|]. intros x [->|[]]. lra.
  - destruct (IH (Rmin r y)) as (I & M). split.
    + destruct I as [E|I]; [|right; right; exact I]. rewrite <- E. unfold Rmin. destruct (Rle_dec r y); [left|right; left]; reflexivity.
    + pose proof (M _ (or_introl eq_refl)) as MM. pose proof (Rmin_l r y). pose proof (Rmin_r r y).
      intros x [->|[->|H1]]; [lra|lra|]. apply M. right. exact H1.
Qed.

(** ** C90 *)
(** The tip never gets higher. *)
Theorem C90_never_higher fs tooth rah rdh red ca br : apply_tip_reduction fs tooth rah rdh red ca br <= rah.
Proof.
  unfold apply_tip_reduction. destruct (tip_radii _ _ _ _ _); [lra|].
  destruct (Rlt_dec _ _); [|lra]. destruct (Rlt_dec 0 red); lra.
Qed.

(** The tip is left alone if every crossing lies at least [red] above it, otherwise it is put [red] below the lowest. *)
Theorem C90_reduction fs tooth rah rdh red ca br : 0 < red ->
  let h := apply_tip_reduction fs tooth rah rdh red ca br in
  (forall r, crossing fs tooth ca br rdh r -> h <= r - red) /\
  (h = rah \/ (h < rah /\ exists r, crossing fs tooth ca br rdh r /\ h = r - red)).
Proof.
  intros R0 h. unfold h, apply_tip_reduction. destruct (tip_radii fs tooth ca br rdh) as [|r rs] eqn:E.
  - split; [|left; reflexivity]. intros r H. apply in_tip_radii in H. rewrite E in H. destruct H.
  - destruct (fold_min rs r) as (I & M). rewrite <- E in I, M.
    destruct (Rlt_dec _ _) as [L|L].
    + destruct (Rlt_dec 0 red); [|contradiction]. split.
      * intros x H. apply in_tip_radii in H. specialize (M x H). lra.
      * right. split; [exact L|]. eexists. split; [apply in_tip_radii, I|reflexivity].
    + split; [|left; reflexivity]. intros x H. apply in_tip_radii in H. specialize (M x H). lra.
Qed.
Theorem C90_nothing_found fs tooth rah rdh red ca br : (forall r, ~ crossing fs tooth ca br rdh r) ->
  apply_tip_reduction fs tooth rah rdh red ca br = rah.
Proof.
  intros H. unfold apply_tip_reduction. destruct (tip_radii fs tooth ca br rdh) as [|r rs] eqn:E; [reflexivity|].
  exfalso. apply (H r). apply in_tip_radii. rewrite E. left. reflexivity.
Qed.

(** Switched off, it changes no circle; switched on, only the addendum circle. *)
Theorem C90_off fs tooth rc red ca br : red <= 0 -> reduced_circles fs tooth rc red ca br = rc.
Proof. intros H. unfold reduced_circles. destruct (Rlt_dec 0 red); [lra|reflexivity]. Qed.
Theorem C90_others fs tooth rc red ca br : let rc' := reduced_circles fs tooth rc red ca br in
  rc_p rc' = rc_p rc /\ rc_d rc' = rc_d rc /\ rc_o rc' = rc_o rc.
Proof. intros rc'. unfold rc', reduced_circles. destruct (Rlt_dec 0 red); repeat split. Qed.

Lemma inverse_polar_at ca br h phi : - PI < ca < PI -> 0 < br ->
  exists r z, inverse_polar_transform ca br (V h phi 0) = V (r * cos phi) (r * sin phi) z /\
    (forall psi, inverse_polar_transform ca br (V h psi 0) = V (r * cos psi) (r * sin psi) z) /\
    (proper_height ca br h -> 0 < r).
Proof.
  intros Hc Hb. unfold inverse_polar_transform, proper_height. destruct (Req_EM_T ca 0) as [E|E].
  - exists h, 0. unfold cylindrical_to_xyz. cbn [vx vy vz ORIGIN].
    split; [apply vec_eq; cbn; ring|]. split; [intros psi; apply vec_eq; cbn; ring|]. intros (H & _). apply H, E.
  - rewrite (polar_apex ca br) by assumption. pose proof (polar_R_pos ca br (Rgt_not_eq _ _ Hb) Hc E) as RP.
    set (RR := c_R (polar_cone ca br)) in *.
    exists (RR * sin (PI / 2 - h / RR)). eexists.
    split; [|split].
    + unfold spherical_to_xyz, zcomp. cbn [vx vy vz]. apply vec_eq; cbn [vx vy vz]; [ring|ring|reflexivity].
    + intros psi. unfold spherical_to_xyz, zcomp. cbn [vx vy vz]. apply vec_eq; cbn [vx vy vz]; ring.
    + intros (_ & H). specialize (H E). apply Rabs_def2 in H. apply Rmult_lt_0_compat; [exact RP|].
      assert (- (PI / 2) < h / RR < PI / 2).
      { split; apply Rmult_lt_reg_r with RR; try lra; unfold Rdiv; rewrite (Rmult_assoc h), Rinv_l by lra; lra. }
      apply sin_gt_0; lra.
Qed.

Lemma inverse_polar_height ca br h phi : - PI < ca < PI -> 0 < br -> proper_height ca br h -> - PI < phi <= PI ->
  polar_transform ca br (inverse_polar_transform ca br (V h phi 0)) = V h phi 0.
Proof.
  intros Hc Hb (H0 & H1) Hp. destruct (Req_EM_T ca 0) as [->|E].
  - apply C13_polar_round_trip_inv_cyl; auto.
  - specialize (H1 E). apply Rabs_def2 in H1.
    apply C13_polar_round_trip_inv; try assumption; [lra|apply polar_R_pos; try assumption; lra|lra].
Qed.

(** Every point of the circle lies at the height it is made for, on the cylinder's plane or the cone's sphere. *)
Theorem C90_circle_height ca br h s : - PI < ca < PI -> 0 < br -> proper_height ca br h ->
  let p := c_eval (ref_circle (inverse_polar_transform ca br (V h 0 0))) s in
  at_height ca br h p /\ vz (polar_transform ca br p) = 0.
Proof.
  intros Hc Hb Hh. destruct (inverse_polar_at ca br h 0 Hc Hb) as (r & z & E0 & EP & RP). specialize (RP Hh).
  rewrite E0. replace (V (r * cos 0) (r * sin 0) z) with (V r 0 z) by (rewrite cos_0, sin_0; apply vec_eq; cbn; ring).
  destruct (ref_circle_at r z ltac:(lra)) as (EV & _). cbv zeta. rewrite EV.
  set (a := 2 * PI * s). set (phi := arctan2 (sin a) (cos a)).
  destruct (arctan2_cos_sin (sin a) (cos a)) as (C & S). fold phi in C, S.
  assert (Q : sqrt (cos a * cos a + sin a * sin a) = 1).
  { pose proof (sin2_cos2 a) as SC. unfold Rsqr in SC. replace (cos a * cos a + sin a * sin a) with 1 by lra. apply sqrt_1. }
  rewrite Q, Rmult_1_l in C, S. rewrite <- C, <- S, <- EP. unfold at_height.
  rewrite inverse_polar_height by (try assumption; apply arctan2_bound). split; reflexivity.
Qed.

(** The new addendum circle: all around at the reduced height, at least [red] below every crossing found and never
    above the old one. *)
Theorem C90_circle fs tooth rc red ca br s : 0 < red -> - PI < ca < PI -> 0 < br ->
  let rc' := reduced_circles fs tooth rc red ca br in
  let rah := vx (polar_transform ca br (c_eval (rc_a rc) 0)) in
  let rdh := vx (polar_transform ca br (c_eval (rc_d rc) 0)) in
  let h := apply_tip_reduction fs tooth rah rdh red ca br in
  proper_height ca br h ->
  at_height ca br h (c_eval (rc_a rc') s) /\ vz (polar_transform ca br (c_eval (rc_a rc') s)) = 0 /\ h <= rah /\
  forall r, crossing fs tooth ca br rdh r -> h <= r - red.
Proof.
  intros R0 Hc Hb rc' rah rdh h Hh.
  assert (E : rc_a rc' = ref_circle (inverse_polar_transform ca br (V h 0 0))).
  { unfold rc', reduced_circles. destruct (Rlt_dec 0 red); [reflexivity|contradiction]. }
  rewrite E. destruct (C90_circle_height ca br h s Hc Hb Hh) as (A & B). split; [exact A|]. split; [exact B|].
  split; [apply C90_never_higher|]. apply C90_reduction, R0.
Qed.

(** The circles of the gear lie at the heights [ha] above and [hd] below the pitch circle. *)
Theorem C90_gear_circles rp ha hd ho ca s : - PI < ca < PI -> 0 < rp ->
  let rc := generate_reference_circles rp ha hd ho ca rp in
  let h0 := vx (polar_transform ca rp (V rp 0 0)) in
  (proper_height ca rp (h0 + ha) -> at_height ca rp (h0 + ha) (c_eval (rc_a rc) s)) /\
  (proper_height ca rp (h0 - hd) -> at_height ca rp (h0 - hd) (c_eval (rc_d rc) s)) /\
  (ca = 0 -> h0 = rp).
Proof.
  intros Hc Hb rc h0.
  assert (B : polar_transform ca rp (V rp 0 0) = V h0 0 0).
  { unfold h0. destruct (Req_EM_T ca 0) as [->|E].
    - unfold polar_transform. destruct (Req_EM_T 0 0); [|contradiction]. unfold xyz_to_cylindrical. vec_simpl.
      rewrite !Rminus_0_r. rewrite atan2_0_pos by exact Hb. reflexivity.
    - replace (V rp 0 0) with (V (rp * cos 0) (rp * sin 0) 0) by (rewrite cos_0, sin_0; apply vec_eq; cbn; ring).
      pose proof PI_RGT_0. rewrite C13_polar_base_circle by (assumption || lra). reflexivity. }
  assert (RF : forall h, ref_point ca rp rp h = inverse_polar_transform ca rp (V (h0 + h) 0 0)).
  { intros h. unfold ref_point. replace (smul rp RIGHT) with (V rp 0 0) by (apply vec_eq; vec_simpl; ring).
    rewrite B. f_equal. apply vec_eq; vec_simpl; ring. }
  unfold rc, generate_reference_circles. cbn [rc_a rc_d]. rewrite !RF.
  split; [|split].
  - intros H. apply C90_circle_height; assumption.
  - intros H. replace (h0 + - hd) with (h0 - hd) by ring. apply C90_circle_height; assumption.
  - intros ->. unfold h0, polar_transform. destruct (Req_EM_T 0 0); [|contradiction]. unfold xyz_to_cylindrical. vec_simpl.
    rewrite !Rminus_0_r. replace (rp * rp + 0 * 0) with (Rsqr rp) by (unfold Rsqr; ring). apply sqrt_Rsqr. lra.
Qed.

(** *** A pointed tooth *)
Definition ex_pointed : node := Prim (line_curve (V 8 (-1) 0) (V 10 0 0) true).
(** The solver: the flank meets the symmetry plane at the place [x]. *)
Definition meets_at (x : R) : fsolver := mkFs (fun _ _ _ _ _ _ => (false, 0, 0)) (fun _ _ _ _ => (false, 0, 0)) (fun _ _ _ => (true, x)).

Lemma radius_x br x : 0 <= x -> vx (polar_transform 0 br (V x 0 0)) = x.
Proof.
  intros H. unfold polar_transform. destruct (Req_EM_T 0 0); [|contradiction]. unfold xyz_to_cylindrical. vec_simpl.
  rewrite !Rminus_0_r. replace (x * x + 0 * 0) with (Rsqr x) by (unfold Rsqr; ring). apply sqrt_Rsqr, H.
Qed.
Lemma ex_pointed_crossing r : crossing (meets_at 1) ex_pointed 0 9 8 r <-> r = 10.
Proof.
  assert (P : n_point ex_pointed 1 = V 10 0 0).
  { unfold n_point, ex_pointed. cbn [n_eval]. rewrite line_eval. apply vec_eq; vec_simpl; ring. }
  split.
  - intros (g & x & _ & E & -> & _). injection E as <-. rewrite P. apply radius_x. lra.
  - intros ->. exists (1 / 10), 1. split; [left; reflexivity|]. split; [reflexivity|]. rewrite P, radius_x by lra. split; [reflexivity|lra].
Qed.
(** The point is cut off half a unit below, the addendum circle at 11 goes down to 9.5. *)
Example C90_example :
  apply_tip_reduction (meets_at 1) ex_pointed 11 8 (1 / 2) 0 9 = 19 / 2 /\
  forall rc s, c_eval (rc_a rc) 0 = V 11 0 0 -> c_eval (rc_d rc) 0 = V 8 0 0 ->
    at_height 0 9 (19 / 2) (c_eval (rc_a (reduced_circles (meets_at 1) ex_pointed rc (1 / 2) 0 9)) s).
Proof.
  assert (A : apply_tip_reduction (meets_at 1) ex_pointed 11 8 (1 / 2) 0 9 = 19 / 2).
  { destruct (C90_reduction (meets_at 1) ex_pointed 11 8 (1 / 2) 0 9 ltac:(lra)) as (H1 & H2).
    specialize (H1 10 (proj2 (ex_pointed_crossing 10) eq_refl)).
    destruct H2 as [H2|(_ & r & C & H2)]; [lra|]. apply ex_pointed_crossing in C. lra. }
  split; [exact A|]. intros rc s E1 E2. pose proof PI_RGT_0.
  pose proof (C90_circle (meets_at 1) ex_pointed rc (1 / 2) 0 9 s ltac:(lra) ltac:(lra) ltac:(lra)) as H1. cbv zeta in H1.
  rewrite E1, E2, !radius_x, A in H1 by lra. apply H1. split; intros; lra.
Qed.
(** Nothing keeps the tip above the dedendum circle. *)
Theorem C90_above_dedendum_refuted : exists fs tooth rah rdh red ca br r,
  crossing fs tooth ca br rdh r /\ rdh < rah /\ 0 < red /\ apply_tip_reduction fs tooth rah rdh red ca br < rdh.
Proof.
  exists (meets_at 1), ex_pointed, 11, 8, 3, 0, 9, 10. split; [apply ex_pointed_crossing; reflexivity|].
  destruct (C90_reduction (meets_at 1) ex_pointed 11 8 3 0 9 ltac:(lra)) as (H1 & _).
  specialize (H1 10 (proj2 (ex_pointed_crossing 10) eq_refl)). lra.
Qed.

(** ** C91: specification *)
Definition on_circle (r z : R) (p : vec) : Prop := vx p * vx p + vy p * vy p = r * r /\ vz p = z.

(** ** C91: lemmas *)
Lemma trim_with_fillets sv t rc tipf rootf pitch : 0 < tipf -> 0 < rootf -> trim_flank sv t rc tipf rootf pitch = Ok t.
Proof.
  intros T RT. unfold trim_flank, trim_tip, trim_root. destruct (Rlt_dec 0 tipf); [|contradiction]. cbn [bind].
  destruct (Rlt_dec 0 rootf); [reflexivity|contradiction].
Qed.

Lemma arc_on_circle p q : vz p = vz q -> vx p * vx p + vy p * vy p = vx q * vx q + vy q * vy q ->
  vx p * vy q - vy p * vx q <> 0 -> forall r s, on_circle r (vz p) p ->
  on_circle r (vz p) (c_eval (from_2_point_center p q (axis_center p q) 0 true) s).
Proof.
  intros Z N C r s (HR & _). set (ce := axis_center p q) in *.
  assert (CE : ce = V 0 0 (vz p)) by (unfold ce, axis_center; apply vec_eq; cbn; lra).
  assert (CR : cross (vsub p ce) (vsub q ce) = V 0 0 (vx p * vy q - vy p * vx q)).
  { rewrite CE. destruct p as [a b c], q as [a' b' c']. cbn [vx vy vz] in *. subst c'. apply vec_eq; vec_simpl; ring. }
  assert (NZ : cross (vsub p ce) (vsub q ce) <> ORIGIN).
  { rewrite CR. intros E. apply C. exact (f_equal vz E). }
  destruct (C33_two_point_center_shape p q ce 0 true NZ) as (th & m & SH & _ & AX).
  change (from_2_point_center p q ce (IZR 0) true) with (from_2_point_center p q ce 0 true) in SH.
  assert (EU : exists yaw pitch roll, m = euler_zyx yaw pitch roll).
  { revert SH. unfold from_2_point_center, arc_from_frame. destruct (as_euler_zyx _) as [[yaw pitch] roll].
    unfold arc_curve. rewrite arc_new_shape. intros Q. injection Q as _ Q. eauto. }
  destruct EU as (yaw & pitch & roll & ->).
  destruct (C33_on_circle _ _ _ _ _ _ _ s SH (norm_nonneg _)) as (N1 & D).
  rewrite AX in D. pose proof (normalize_dot _ NZ) as ND. rewrite CR in D, ND.
  revert N1 D. generalize (c_eval (from_2_point_center p q ce 0 true) s). intros [x y z] N1 D.
  assert (QZ : z = vz p).
  { unfold normalize in D. rewrite CE in D. rewrite dot_smul_r in D. revert D. vec_simpl. intros D.
    assert (K : / norm (V 0 0 (vx p * vy q - vy p * vx q)) <> 0).
    { apply Rinv_neq_0_compat, Rgt_not_eq, norm_pos. intros E. apply C. exact (f_equal vz E). }
    destruct (Rmult_integral _ _ D) as [D1|D1]; [contradiction|].
    replace (_ + _ + (z - vz p) * (vx p * vy q - vy p * vx q)) with ((z - vz p) * (vx p * vy q - vy p * vx q)) in D1 by ring.
    destruct (Rmult_integral _ _ D1) as [D2|D2]; [apply Rminus_diag_uniq, D2|exfalso; apply C, D2]. }
  split; [|exact QZ]. apply (f_equal (fun t => t * t)) in N1. rewrite !norm_sqr, CE in N1. cbn [vx vy].
  subst z. rewrite <- HR. revert N1. destruct p as [a b c]. vec_simpl. intros. lra.
Qed.

(** ** C91 *)
(** Whatever the solvers return, if the flank they leave is usable: the profile of C53, with the transform given. *)
Theorem C91_profile sv fs tooth rp ha hd ho ca br tipf rootf red pitch trf f t :
  let rc := reduced_circles fs tooth (generate_reference_circles rp ha hd ho ca br) red ca br in
  filleted_flank fs tooth rc tipf rootf pitch = Ok f -> List.Forall fresh (leaves f) ->
  trim_flank sv f rc tipf rootf pitch = Ok t -> flank_ok t -> not_opposite t pitch ->
  exists p a b, generate_reference_profile sv fs tooth rp ha hd ho ca br tipf rootf red pitch trf = Ok p /\
    pr_trf p = trf /\ pr_pitch p = pitch /\ pr_tooth p = t /\
    n_eval (pr_chain p) 0 = Ok a /\ n_eval (pr_chain p) 1 = Ok b /\
    norm (vsub (turn pitch a) b) <= / 10000000000 /\
    (/ 10000000000 < root_gap t pitch -> b = turn pitch a) /\
    joined_within (/ 10000000000) (leaves (pr_chain p)) /\
    (/ 10000000000 < root_gap t pitch -> / 10000000000 < tip_gap t -> joined (leaves (pr_chain p))).
Proof.
  intros rc FF FR TR FO NO.
  destruct (C53_profile sv f rc tipf rootf pitch t FR TR FO NO) as (p & a & b & EP & E0 & E1 & _ & P1 & P2 & PT & PP & J1 & J2).
  exists (mkPr (pr_ra p) (pr_rd p) (pr_ro p) (pr_tooth p) (pr_mirror p) (pr_pitch p) trf), a, b.
  split.
  - unfold generate_reference_profile. fold rc. rewrite FF. cbn [bind]. rewrite EP. reflexivity.
  - cbn [pr_trf pr_pitch pr_tooth]. repeat (split; [first [reflexivity|assumption]|]). assumption.
Qed.

(** With both fillets the trimming changes nothing: the flank of the profile is the filleted one. *)
Theorem C91_fillets sv fs tooth rp ha hd ho ca br tipf rootf red pitch trf f : 0 < tipf -> 0 < rootf ->
  let rc := reduced_circles fs tooth (generate_reference_circles rp ha hd ho ca br) red ca br in
  filleted_flank fs tooth rc tipf rootf pitch = Ok f -> List.Forall fresh (leaves f) -> flank_ok f -> not_opposite f pitch ->
  exists p, generate_reference_profile sv fs tooth rp ha hd ho ca br tipf rootf red pitch trf = Ok p /\ pr_tooth p = f.
Proof.
  intros T RT rc FF FR FO NO.
  destruct (C91_profile sv fs tooth rp ha hd ho ca br tipf rootf red pitch trf f f FF FR (trim_with_fillets _ _ _ _ _ _ T RT) FO NO)
    as (p & _ & _ & EP & _ & _ & PT & _). eauto.
Qed.

(** The lands: a tip on a circle about the axis gives an arc on that circle, and likewise the root. *)
Theorem C91_lands sv fs tooth rp ha hd ho ca br tipf rootf red pitch trf f t p :
  let rc := reduced_circles fs tooth (generate_reference_circles rp ha hd ho ca br) red ca br in
  filleted_flank fs tooth rc tipf rootf pitch = Ok f -> List.Forall fresh (leaves f) ->
  trim_flank sv f rc tipf rootf pitch = Ok t -> flank_ok t -> not_opposite t pitch ->
  generate_reference_profile sv fs tooth rp ha hd ho ca br tipf rootf red pitch trf = Ok p ->
  forall r z s,
  (/ 10000000000 < tip_gap t -> on_circle r z (n_point t 1) -> on_circle r z (c_eval (pr_ra p) s)) /\
  (/ 10000000000 < root_gap t pitch -> on_circle r z (n_point t 0) -> on_circle r z (c_eval (pr_rd p) s)).
Proof.
  intros rc FF FR TR FO NO EP r z s.
  pose proof (trim_leaves_fresh _ _ _ _ _ _ _ FR TR) as FT.
  destruct (assemble_ok t rc pitch FO FT NO) as (p' & EA & AS).
  assert (EQ : pr_ra p = pr_ra p' /\ pr_rd p = pr_rd p').
  { revert EP. unfold generate_reference_profile, trim_reference_profile. fold rc. rewrite FF. cbn [bind]. rewrite TR. cbn [bind].
    rewrite EA. cbn [bind]. intros Q. apply Ok_inj in Q. subst p. split; reflexivity. }
  destruct EQ as (-> & ->). split; intros G (H1 & H2).
  - destruct (as_ra t pitch p' AS) as (x & y & ->). unfold closing_arc. unfold tip_gap in G.
    destruct (Rlt_dec _ _); [|contradiction]. subst z. apply arc_on_circle.
    + reflexivity.
    + generalize (n_point t 1). intros q. unfold flip. cbn [vx vy vz]. ring.
    + apply tip_cross; [lra|apply NO].
    + split; [exact H1|reflexivity].
  - destruct (as_rd t pitch p' AS) as (x & y & ->). unfold closing_arc. unfold root_gap in G.
    destruct (Rlt_dec _ _); [|contradiction].
    set (q := turn (- pitch) (flip (n_point t 0))).
    assert (QN : vx q * vx q + vy q * vy q = vx (n_point t 0) * vx (n_point t 0) + vy (n_point t 0) * vy (n_point t 0)).
    { unfold q. generalize (n_point t 0). intros [a b c]. unfold turn, flip. cbn [vx vy vz].
      pose proof (sin2_cos2 (- pitch)) as S. unfold Rsqr in S.
      replace ((a * cos (- pitch) - - b * sin (- pitch)) * (a * cos (- pitch) - - b * sin (- pitch)) +
               (a * sin (- pitch) + - b * cos (- pitch)) * (a * sin (- pitch) + - b * cos (- pitch)))
        with ((a * a + b * b) * (sin (- pitch) * sin (- pitch) + cos (- pitch) * cos (- pitch))) by ring.
      rewrite S. ring. }
    replace z with (vz q) by (rewrite <- H2; reflexivity). apply arc_on_circle.
    + reflexivity.
    + exact QN.
    + apply root_cross; [lra|apply NO].
    + split; [congruence|reflexivity].
Qed.

(** Without fillets: where the search for the addendum circle (the dedendum circle) succeeded, the flank ends (starts)
    there. *)
Definition meets (n : node) (x : R) (c : curve) (y : R) : Prop := n_eval n x = Ok (c_eval c y).
Theorem C91_trimmed_tip sv tooth ra pitch x0 x1 d : usable tooth -> joined (leaves tooth) ->
  sv_meet sv EQUALITY tooth ra (9 / 10) (- pitch / 8 / c_length ra) = (true, x0, x1) -> meets tooth x0 ra x1 ->
  vy (c_eval ra x1) < 0 ->
  exists t, trim_tip sv tooth ra 0 pitch = Ok t /\ joined (leaves t) /\ c_eval (last (leaves t) d) 1 = c_eval ra x1 /\
    c_eval (hd d (leaves t)) 0 = c_eval (hd d (leaves tooth)) 0.
Proof.
  intros U J S M Y. destruct (end_cut tooth x0 d U J) as (m & c & u & E & JM & _ & P & H & _).
  exists m. rewrite M in P. apply Ok_inj in P. split; [|auto].
  unfold trim_tip. destruct (Rlt_dec 0 0); [lra|]. cbv zeta. rewrite S. cbn [fst]. rewrite M. cbn [bind orb andb].
  unfold lt_b. destruct (Rlt_dec _ 0); [exact E|contradiction].
Qed.
Theorem C91_trimmed_root sv tooth rd pitch x0 x1 d : usable tooth -> joined (leaves tooth) ->
  sv_meet sv EQUALITY tooth rd (3 / 10) (- pitch / 2 / c_length rd) = (true, x0, x1) -> meets tooth x0 rd x1 ->
  - (pitch / 2) < arctan2 (vy (c_eval rd x1)) (vx (c_eval rd x1)) ->
  exists t, trim_root sv tooth rd 0 pitch = Ok t /\ joined (leaves t) /\ c_eval (hd d (leaves t)) 0 = c_eval rd x1 /\
    c_eval (last (leaves t) d) 1 = c_eval (last (leaves tooth) d) 1.
Proof.
  intros U J S M Y. destruct (start_cut tooth x0 d U J) as (m & c & u & E & JM & _ & P & H & _).
  exists m. rewrite M in P. apply Ok_inj in P. split; [|auto].
  unfold trim_root. destruct (Rlt_dec 0 0); [lra|]. cbv zeta. rewrite S, M. cbn [bind].
  destruct (sv_meet sv MINDISTANCE tooth rd 0 _) as [[ok2 b0] b1]. rewrite M. cbn [bind orb andb].
  unfold lt_b. destruct (Rlt_dec _ _) as [L|L]; [exact E|]. exfalso. apply L. lra.
Qed.

(** A flank of a gear with four teeth whose prolongation meets the middle of the tooth at radius 13; the tip reduction
    puts the addendum circle through the flank's end and the tip land onto it. *)
Example C91_example : exists p, let red := 13 - sqrt 122 in
  generate_reference_profile ex_solver (meets_at 2) ex_flank 10 2 1 2 0 10 0 0 red (PI / 2) g_default = Ok p /\
  joined (leaves (pr_chain p)) /\
  apply_tip_reduction (meets_at 2) ex_flank 12 9 red 0 10 = 13 - red /\
  forall s, on_circle (13 - red) 0 (c_eval (pr_ra p) s).
Proof.
  set (red := 13 - sqrt 122). cbv zeta.
  assert (Q : 11 < sqrt 122 < 12).
  { split; [replace 11 with (sqrt (11 * 11)) by (apply sqrt_square; lra)|replace 12 with (sqrt (12 * 12)) by (apply sqrt_square; lra)];
      apply sqrt_lt_1; lra. }
  set (rc := reduced_circles (meets_at 2) ex_flank (generate_reference_circles 10 2 1 2 0 10) red 0 10).
  assert (FF : filleted_flank (meets_at 2) ex_flank rc 0 0 (PI / 2) = Ok ex_flank).
  { unfold filleted_flank. destruct (Rlt_dec 0 0); [lra|]. reflexivity. }
  assert (FR : List.Forall fresh (leaves ex_flank)) by (constructor; [apply new_fresh|constructor]).
  destruct (C91_profile ex_solver (meets_at 2) ex_flank 10 2 1 2 0 10 0 0 red (PI / 2) g_default ex_flank ex_flank
    FF FR (ex_trim _) ex_flank_ok ex_not_opposite) as (p & a & b & EP & _ & _ & _ & _ & _ & _ & _ & _ & JO).
  exists p. split; [exact EP|]. split; [apply JO; [apply ex_root_gap|apply ex_tip_gap]|]. split.
  - assert (P2 : n_point ex_flank 2 = V 13 0 0) by (rewrite ex_flank_point; apply vec_eq; cbn; ring).
    destruct (C90_reduction (meets_at 2) ex_flank 12 9 red 0 10) as (H1 & H2); [unfold red; lra|].
    assert (C : crossing (meets_at 2) ex_flank 0 10 9 13).
    { exists (1 / 10), 2. split; [left; reflexivity|]. split; [reflexivity|]. rewrite P2, radius_x by lra. split; [reflexivity|lra]. }
    specialize (H1 13 C). destruct H2 as [H2|(_ & r & (g & x & _ & E & -> & _) & H2)]; [rewrite H2 in H1; unfold red in H1; lra|].
    injection E as <-. rewrite P2, radius_x in H2 by lra. exact H2.
  - intros s. apply (C91_lands ex_solver (meets_at 2) ex_flank 10 2 1 2 0 10 0 0 red (PI / 2) g_default ex_flank ex_flank p
      FF FR (ex_trim _) ex_flank_ok ex_not_opposite EP (13 - red) 0 s); [apply ex_tip_gap|].
    rewrite ex_flank_point. split; cbn [vx vy vz]; [|reflexivity]. unfold red. replace (13 - (13 - sqrt 122)) with (sqrt 122) by ring.
    rewrite sqrt_sqrt by lra. ring.
Qed.
