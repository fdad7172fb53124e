(** Properties C51 (reference circles) and C52 (rack reference lines). *)
From Coq Require Import Nsatz Reals List ZArith Lra Lia Psatz.
From Verif Require Import Num Vec Transform TransformProps Params ParamsProps Coords CoordsProps Interp Curve CurveLem
  CurveProps ArcLem ArcProps World WorldLem RefLines.
Import ListNotations.
Open Scope R_scope.

(** ** C51 *)

(** The curve runs once round the z axis at height [z], from angle 0 (from angle pi if [r] is
    negative). *)
Definition circle_about_z (c : curve) (r z : R) : Prop :=
  (forall s, c_eval c s = V (r * cos (2 * PI * s)) (r * sin (2 * PI * s)) z) /\
  exists m, c_shape c = SArc (Rabs r) (2 * PI) (V 0 0 z) m.

Lemma norm_xz a : norm (V a 0 0) = Rabs a.
Proof.
  unfold norm. replace (dot (V a 0 0) (V a 0 0)) with (Rsqr a) by (vec_simpl; unfold Rsqr; ring). apply sqrt_Rsqr_abs.
Qed.

Lemma ref_circle_at r z : r <> 0 -> circle_about_z (ref_circle (V r 0 z)) r z.
Proof.
  intros H. unfold ref_circle. cbn [vz].
  assert (E : vsub (V r 0 z) (smul z OUT) = V r 0 0) by (apply vec_eq; vec_simpl; ring).
  split.
  - intros s. rewrite C33_point_center_angle.
    + rewrite E, rodrigues_OUT. apply vec_eq; vec_simpl; ring.
    + intros B. apply H. apply (f_equal vx) in B. cbn in B. lra.
    + vec_simpl. ring.
    + rewrite E. vec_simpl. ring.
  - unfold from_point_center_angle. rewrite E, norm_xz.
    replace (smul z OUT) with (V 0 0 z) by (apply vec_eq; vec_simpl; ring).
    unfold arc_from_frame. destruct (as_euler_zyx _) as [[yaw pitch] roll]. eexists. reflexivity.
Qed.

Lemma polar_R ca br : - PI < ca < PI -> ca <> 0 -> 0 < br ->
  c_R (polar_cone ca br) * sin (Rabs (ca / 2)) = br.
Proof.
  intros Hc E Hb.
  assert (SA : 0 < sin (Rabs (ca / 2))).
  { apply sin_gt_0; [apply Rabs_pos_lt; lra|]. apply Rabs_def1; lra. }
  unfold c_R, polar_cone, gamma. cbn [base_radius cone_angle c_trf t_default t_scale].
  rewrite Rmult_1_r. revert SA. unfold Rabs at 1 3. destruct (Rcase_abs (ca / 2)); intros SA.
  - rewrite sin_neg in *. rewrite Rabs_left; [field; lra|].
    replace (br / sin (ca / 2)) with (- (br / - sin (ca / 2))) by (field; lra).
    apply Ropp_lt_gt_0_contravar. apply Rdiv_lt_0_compat; lra.
  - rewrite Rabs_right; [field; lra|]. apply Rle_ge, Rlt_le, Rdiv_lt_0_compat; lra.
Qed.

Lemma polar_apex ca br : - PI < ca < PI -> ca <> 0 -> 0 < br ->
  c_center (polar_cone ca br) = V 0 0 (sign ca * (c_R (polar_cone ca br) * cos (ca / 2))).
Proof.
  intros Hc E Hb. destruct (trig_nonzero (ca / 2)) as (S & C & K); [lra|lra|].
  pose proof (polar_R ca br Hc E Hb) as Rr. set (RR := c_R (polar_cone ca br)) in *.
  unfold c_center. rewrite apply_transform_eq. unfold polar_cone, t_default, gamma.
  cbn [base_radius cone_angle c_trf t_orient t_scale t_center].
  rewrite mapp_I. clearbody RR. rewrite <- Rr. vec_simpl. apply vec_eq; vec_simpl; try ring.
  unfold tan, sign, Rabs. destruct (Rcase_abs (ca / 2)).
  - destruct (Rlt_dec ca 0); [|lra]. rewrite sin_neg. field. split; assumption.
  - destruct (Rlt_dec ca 0); [lra|]. destruct (Rlt_dec 0 ca); [|lra]. field. split; assumption.
Qed.

(** The reference points of a conic gear. *)
Lemma ref_point_conic ca rp h : - PI < ca < PI -> ca <> 0 -> 0 < rp ->
  let RR := c_R (polar_cone ca rp) in let t := Rabs (ca / 2) + h / RR in
  ref_point ca rp rp h = V (RR * sin t) 0 (sign ca * (RR * cos (ca / 2) - RR * cos t)).
Proof.
  intros Hc E Hb RR t. pose proof (polar_R_pos ca rp (Rgt_not_eq _ _ Hb) Hc E) as RP. fold RR in RP.
  pose proof PI_RGT_0. unfold ref_point.
  replace (smul rp RIGHT) with (V (rp * cos 0) (rp * sin 0) 0)
    by (rewrite cos_0, sin_0; apply vec_eq; vec_simpl; ring).
  rewrite C13_polar_base_circle by (assumption || lra). fold RR.
  unfold inverse_polar_transform. destruct (Req_EM_T ca 0); [contradiction|].
  rewrite (polar_apex ca rp) by assumption. fold RR. cbn [vx vy vz vadd].
  replace (PI / 2 - ((Rabs (ca / 2) - PI / 2) * RR + h) / RR) with (PI - t) by (unfold t; field; lra).
  unfold spherical_to_xyz, zcomp. cbn [vx vy vz].
  rewrite sin_PI_x, Rtrigo_facts.cos_pi_minus, Rplus_0_l, sin_0, cos_0.
  pose proof (sign_sqr ca E) as SS.
  apply vec_eq; cbn [vx vy vz]; try ring.
  transitivity (sign ca * (sign ca * sign ca) * (RR * cos (ca / 2)) - sign ca * RR * cos t); [ring|].
  rewrite SS. ring.
Qed.

Lemma ref_point_cyl br rp h : 0 < rp -> ref_point 0 br rp h = V (rp + h) 0 0.
Proof.
  intros Hb. unfold ref_point, polar_transform, inverse_polar_transform. destruct (Req_EM_T 0 0); [|contradiction].
  unfold xyz_to_cylindrical, cylindrical_to_xyz. vec_simpl.
  replace (rp * 0 - 0) with 0 by ring. replace (rp * 1 - 0) with rp by ring.
  rewrite atan2_0_pos by exact Hb.
  replace (rp * rp + 0 * 0) with (Rsqr rp) by (unfold Rsqr; ring). rewrite sqrt_Rsqr by lra.
  rewrite Rplus_0_l, cos_0, sin_0. apply vec_eq; vec_simpl; ring.
Qed.

(** The depth of the outside circle, limited to 1e-6 inside the axis. *)
Definition outside_depth (rp ho : R) : R := Rmin ho (rp - / 1000000).

Lemma outside_if rp ho : (if Rlt_dec (rp - DELTA) ho then rp - DELTA else ho) = outside_depth rp ho.
Proof. unfold outside_depth, Rmin, DELTA. destruct (Rlt_dec _ _), (Rle_dec _ _); lra. Qed.

(** Cylindrical gears: all four circles lie in the plane z = 0; the radii are the expected ones as
    long as the dedendum does not reach the axis, and the outside radius never vanishes. *)
Theorem C51_cylindrical rp ha hd ho br : 0 < rp -> rp + ha <> 0 -> rp <> hd ->
  let c := generate_reference_circles rp ha hd ho 0 br in
  circle_about_z (rc_p c) rp 0 /\ circle_about_z (rc_a c) (rp + ha) 0 /\
  circle_about_z (rc_d c) (rp - hd) 0 /\
  circle_about_z (rc_o c) (rp - outside_depth rp ho) 0 /\ / 1000000 <= rp - outside_depth rp ho.
Proof.
  intros Hr Ha Hd c. unfold c, generate_reference_circles. cbn [rc_a rc_p rc_d rc_o].
  rewrite outside_if, !ref_point_cyl by exact Hr.
  replace (smul rp RIGHT) with (V rp 0 0) by (apply vec_eq; vec_simpl; ring).
  assert (D : / 1000000 <= rp - outside_depth rp ho).
  { unfold outside_depth. pose proof (Rmin_r ho (rp - / 1000000)). lra. }
  assert (P : 0 < / 1000000) by (apply Rinv_0_lt_compat; lra).
  repeat split; try exact D; try (apply ref_circle_at; lra).
Qed.

(** Every point of a conic reference circle lies on the sphere about the apex through the pitch
    circle; a height [h] is an arc length along that sphere. *)
Definition conic_radius (ca rp h : R) : R :=
  c_R (polar_cone ca rp) * sin (Rabs (ca / 2) + h / c_R (polar_cone ca rp)).
Definition conic_level (ca rp h : R) : R :=
  sign ca * (c_R (polar_cone ca rp) * cos (ca / 2) -
             c_R (polar_cone ca rp) * cos (Rabs (ca / 2) + h / c_R (polar_cone ca rp))).

Theorem C51_conic rp ha hd ho ca : - PI < ca < PI -> ca <> 0 -> 0 < rp ->
  conic_radius ca rp ha <> 0 -> conic_radius ca rp (- hd) <> 0 ->
  conic_radius ca rp (- outside_depth rp ho) <> 0 ->
  let c := generate_reference_circles rp ha hd ho ca rp in
  circle_about_z (rc_p c) rp 0 /\
  circle_about_z (rc_a c) (conic_radius ca rp ha) (conic_level ca rp ha) /\
  circle_about_z (rc_d c) (conic_radius ca rp (- hd)) (conic_level ca rp (- hd)) /\
  circle_about_z (rc_o c) (conic_radius ca rp (- outside_depth rp ho)) (conic_level ca rp (- outside_depth rp ho)).
Proof.
  intros Hc E Hr Ha Hd Ho c. unfold c, generate_reference_circles. cbn [rc_a rc_p rc_d rc_o].
  rewrite outside_if, !ref_point_conic by assumption. cbv zeta.
  replace (smul rp RIGHT) with (V rp 0 0) by (apply vec_eq; vec_simpl; ring).
  repeat split; try (apply ref_circle_at; first [assumption|lra]).
Qed.

(** The limited outside depth keeps the outside circle of a cone away from the axis as well, on the
    same side as the pitch circle, as long as the depth is not negative. *)
Theorem C51_conic_outside rp ho ca : - PI < ca < PI -> ca <> 0 -> / 1000000 <= rp -> 0 <= ho ->
  0 < conic_radius ca rp (- outside_depth rp ho) <= rp.
Proof.
  intros Hc E Hr Ho. assert (P : 0 < / 1000000) by (apply Rinv_0_lt_compat; lra).
  assert (Hb : 0 < rp) by lra.
  pose proof (polar_R_pos ca rp (Rgt_not_eq _ _ Hb) Hc E) as RP.
  pose proof (polar_R ca rp Hc E Hb) as RS. unfold conic_radius.
  set (RR := c_R (polar_cone ca rp)) in *. set (g := Rabs (ca / 2)) in *.
  assert (G : 0 < g < PI / 2).
  { split; [apply Rabs_pos_lt; lra|]. apply Rabs_def1; lra. }
  assert (D : 0 <= outside_depth rp ho < rp).
  { unfold outside_depth. split; [apply Rmin_glb; lra|]. pose proof (Rmin_r ho (rp - / 1000000)). lra. }
  set (d := outside_depth rp ho) in *. pose proof (sin_lt_x g (proj1 G)) as SG.
  assert (B : 0 <= d / RR < g).
  { split.
    - apply Rmult_le_reg_r with RR; [lra|]. unfold Rdiv. rewrite Rmult_assoc, Rinv_l by lra. lra.
    - apply Rmult_lt_reg_r with RR; [lra|]. unfold Rdiv. rewrite Rmult_assoc, Rinv_l by lra. nra. }
  replace (- d / RR) with (- (d / RR)) by (unfold Rdiv; ring).
  assert (S1 : 0 < sin (g + - (d / RR))) by (apply sin_gt_0; lra).
  assert (S2 : sin (g + - (d / RR)) <= sin g) by (apply sin_incr_1; lra).
  nra.
Qed.

(** All points of all four circles have the same distance to the apex. *)
Theorem C51_on_sphere rp h ca s c : - PI < ca < PI -> ca <> 0 -> 0 < rp ->
  circle_about_z c (conic_radius ca rp h) (conic_level ca rp h) ->
  norm (vsub (c_eval c s) (V 0 0 (rp / tan (ca / 2)))) = rp / Rabs (sin (ca / 2)).
Proof.
  intros Hc E Hb [EV _]. rewrite EV.
  pose proof (polar_R_pos ca rp (Rgt_not_eq _ _ Hb) Hc E) as RP.
  destruct (trig_nonzero (ca / 2)) as (S & C & K); [lra|lra|].
  assert (R1 : rp / Rabs (sin (ca / 2)) = c_R (polar_cone ca rp)).
  { unfold c_R, polar_cone, gamma. cbn [base_radius cone_angle c_trf t_default t_scale].
    rewrite Rmult_1_r. unfold Rdiv. rewrite Rabs_mult, Rabs_inv, (Rabs_right rp) by lra. reflexivity. }
  assert (A1 : V 0 0 (rp / tan (ca / 2)) = V 0 0 (sign ca * (c_R (polar_cone ca rp) * cos (ca / 2)))).
  { rewrite <- polar_apex by assumption. unfold c_center. rewrite apply_transform_eq.
    unfold polar_cone, t_default, gamma. cbn [base_radius cone_angle c_trf t_orient t_scale t_center].
    rewrite mapp_I. apply vec_eq; vec_simpl; field; exact K. }
  rewrite R1, A1. unfold conic_radius, conic_level. pose proof (sign_sqr ca E) as SS.
  set (RR := c_R (polar_cone ca rp)) in *. set (t := Rabs (ca / 2) + h / RR).
  apply norm_eq; [lra|]. vec_simpl.
  pose proof (sc1 t) as T. pose proof (sc1 (2 * PI * s)) as T2.
  transitivity (RR * RR * (sin t * sin t * (sin (2 * PI * s) * sin (2 * PI * s) + cos (2 * PI * s) * cos (2 * PI * s))
     + sign ca * sign ca * (cos t * cos t))); [ring|].
  rewrite T2, SS. transitivity (RR * RR * (sin t * sin t + cos t * cos t)); [ring|]. rewrite T. ring.
Qed.

(** A 20-tooth gear (unit module, pitch radius 10) with an outside depth beyond its axis, and a bevel
    gear with a right cone. *)
Example C51_example :
  let c := generate_reference_circles 10 1 (5 / 4) 12 0 10 in
  circle_about_z (rc_a c) (10 + 1) 0 /\ circle_about_z (rc_d c) (10 - 5 / 4) 0 /\
  outside_depth 10 12 = 10 - / 1000000 /\
  0 < conic_radius (PI / 2) 10 (- outside_depth 10 12).
Proof.
  cbv zeta. destruct (C51_cylindrical 10 1 (5 / 4) 12 10) as (_ & A & D & _); try lra.
  repeat split; try apply A; try apply D.
  - unfold outside_depth. apply Rmin_right. lra.
  - pose proof PI_RGT_0. apply C51_conic_outside; lra.
Qed.

(** ** C52 *)

(** Length of a reference line. *)
Definition line_length (s : rstore) (l : nat * nat) : R := norm (vsub (cell s (snd l)) (cell s (fst l))).
(** x coordinate of a reference line relative to the pitch line of the same rack. *)
Definition line_gap (s : rstore) (r : rack_lines) (l : nat * nat) : R := vx (cell s (fst l)) - vx (rl_center s r).

(** Store invariant: UP and DOWN exist and are 2 apart, every rack's pitch line is made of UP and
    DOWN, and the other lines are pairwise different cells of their own with equal contents. *)
Definition rack_locs (r : rack_lines) : list nat :=
  [fst (rl_a r); snd (rl_a r); fst (rl_d r); snd (rl_d r); fst (rl_o r); snd (rl_o r)].
Definition point_line (s : rstore) (l : nat * nat) : Prop := cell s (snd l) = cell s (fst l).
Definition rack_ok (s : rstore) (r : rack_lines) : Prop :=
  rl_p r = (0, 1)%nat /\ point_line s (rl_a r) /\ point_line s (rl_d r) /\ point_line s (rl_o r).
Record rack_inv (s : rstore) : Prop := {
  ri_cells : (2 <= length (rs_cells s))%nat;
  ri_racks : forall r, In r (rs_racks s) -> rack_ok s r;
  ri_locs : forall x, In x (flat_map rack_locs (rs_racks s)) -> (2 <= x < length (rs_cells s))%nat;
  ri_nodup : NoDup (flat_map rack_locs (rs_racks s));
  ri_up : exists c, cell s 0 = vadd c UP /\ cell s 1 = vadd c DOWN }.

Lemma iadd_length c i d : length (iadd c i d) = length c.
Proof. apply set_nth_length. Qed.

Lemma iadd_same c i d : (i < length c)%nat -> nth i (iadd c i d) ORIGIN = vadd (nth i c ORIGIN) d.
Proof. intros H. unfold iadd. rewrite nth_set_nth, Nat.eqb_refl by exact H. reflexivity. Qed.

Lemma iadd_other c i j d : i <> j -> nth j (iadd c i d) ORIGIN = nth j c ORIGIN.
Proof.
  intros H. unfold iadd. generalize (vadd (nth i c ORIGIN) d). intros x. revert i j H.
  induction c as [|y c IH]; intros [|i] [|j] H; cbn; auto; congruence.
Qed.

Lemma iadds_length l d : forall c, length (fold_left (fun c i => iadd c i d) l c) = length c.
Proof. induction l as [|i l IH]; intros c; cbn; [reflexivity|]. rewrite IH. apply iadd_length. Qed.

Lemma iadds_other l d j : ~ In j l -> forall c, nth j (fold_left (fun c i => iadd c i d) l c) ORIGIN = nth j c ORIGIN.
Proof.
  induction l as [|i l IH]; intros N c; cbn; [reflexivity|].
  rewrite IH by (intros H; apply N; right; exact H). apply iadd_other. intros ->. apply N. left. reflexivity.
Qed.

Lemma iadds_in l d j : NoDup l -> In j l -> forall c, (j < length c)%nat ->
  nth j (fold_left (fun c i => iadd c i d) l c) ORIGIN = vadd (nth j c ORIGIN) d.
Proof.
  induction l as [|i l IH]; intros N J c L; [destruct J|]. cbn. inversion N as [|? ? NI N']; subst.
  destruct J as [->|J].
  - rewrite iadds_other by exact NI. apply iadd_same, L.
  - rewrite IH; [|exact N'|exact J|rewrite iadd_length; exact L].
    rewrite iadd_other; [reflexivity|]. intros ->. contradiction.
Qed.

Lemma new_cell_old s ha hd ho i : (i < length (rs_cells s))%nat -> cell (new_rack_lines s ha hd ho) i = cell s i.
Proof. intros H. unfold cell, new_rack_lines. cbn [rs_cells]. apply app_nth1, H. Qed.

Lemma new_cell s ha hd ho k : cell (new_rack_lines s ha hd ho) (length (rs_cells s) + k) =
  nth k [vadd (cell s 0) (smul ha RIGHT); vadd (cell s 0) (smul ha RIGHT);
         vsub (cell s 0) (smul hd RIGHT); vsub (cell s 0) (smul hd RIGHT);
         vsub (cell s 0) (smul ho RIGHT); vsub (cell s 0) (smul ho RIGHT)] ORIGIN.
Proof.
  unfold cell at 1, new_rack_lines. cbn [rs_cells]. rewrite app_nth2 by lia. f_equal. lia.
Qed.

Lemma NoDup_app {A} (l m : list A) : NoDup l -> NoDup m -> (forall x, In x l -> ~ In x m) -> NoDup (l ++ m).
Proof.
  induction 1 as [|x l N L IH]; intros M D; [exact M|]. cbn. constructor.
  - rewrite in_app_iff. intros [H|H]; [contradiction|]. apply (D x); [left; reflexivity|exact H].
  - apply IH; [exact M|]. intros y Y. apply D. right. exact Y.
Qed.

Lemma in_locs s r x : In r (rs_racks s) -> In x (rack_locs r) -> In x (flat_map rack_locs (rs_racks s)).
Proof. intros H X. apply in_flat_map. exists r. split; assumption. Qed.

Lemma locs_ends r : forall x, In x (rack_locs r) <->
  x = fst (rl_a r) \/ x = snd (rl_a r) \/ x = fst (rl_d r) \/ x = snd (rl_d r) \/ x = fst (rl_o r) \/ x = snd (rl_o r).
Proof. intros x. unfold rack_locs. cbn [In]. intuition congruence. Qed.

Lemma inv_new s ha hd ho : rack_inv s -> rack_inv (new_rack_lines s ha hd ho).
Proof.
  intros I. pose proof (ri_cells s I) as L.
  assert (E : flat_map rack_locs (rs_racks (new_rack_lines s ha hd ho)) =
    flat_map rack_locs (rs_racks s) ++ seq (length (rs_cells s)) 6).
  { unfold new_rack_lines. cbn [rs_racks]. rewrite flat_map_app. f_equal. cbn.
    repeat (f_equal; try lia). }
  split.
  - unfold new_rack_lines. cbn [rs_cells]. rewrite app_length. lia.
  - intros r R. unfold new_rack_lines in R. cbn [rs_racks] in R. apply in_app_or in R. destruct R as [R|[<-|[]]].
    + destruct (ri_racks s I r R) as (P & A & D & O).
      assert (B : forall x, In x (rack_locs r) -> (x < length (rs_cells s))%nat).
      { intros x X. apply (ri_locs s I x), (in_locs s r); assumption. }
      unfold rack_ok, point_line in *.
      rewrite !new_cell_old by (apply B, locs_ends; auto 7). auto.
    + unfold rack_ok, point_line. cbn [rl_p rl_a rl_d rl_o fst snd].
      rewrite <- (Nat.add_0_r (length (rs_cells s))) at 2.
      rewrite !new_cell. cbn [nth]. auto.
  - intros x. rewrite E, in_app_iff. unfold new_rack_lines. cbn [rs_cells]. rewrite app_length, in_seq. cbn [length].
    intros [X|X]; [|lia]. apply (ri_locs s I) in X. lia.
  - rewrite E. apply NoDup_app; [apply (ri_nodup s I)|apply seq_NoDup|].
    intros x X. apply (ri_locs s I) in X. rewrite in_seq. lia.
  - rewrite !new_cell_old by lia. apply (ri_up s I).
Qed.

(** Cells written by the centre setter. *)
Definition moved (r : rack_lines) (i : nat) : Prop := (i < 2)%nat \/ In i (rack_locs r).

Lemma NoDup_sub s r : rack_inv s -> In r (rs_racks s) -> NoDup (rack_locs r).
Proof.
  intros I R. pose proof (ri_nodup s I) as N. apply in_split in R. destruct R as (a & b & E).
  rewrite E, flat_map_app in N. clear - N. cbn [flat_map] in N.
  induction (flat_map rack_locs a) as [|x l IH]; cbn [app] in N.
  - generalize dependent (rack_locs r). intros m N. induction m as [|x m IH]; [constructor|].
    cbn [app] in N. inversion N as [|? ? NI N']; subst. constructor; [|apply IH, N'].
    intros H. apply NI. apply in_or_app. left. exact H.
  - inversion N; subst. apply IH. assumption.
Qed.

Lemma set_cells s r v : rack_inv s -> In r (rs_racks s) ->
  (forall i, moved r i -> cell (set_center s r v) i = vadd (cell s i) (vsub v (rl_center s r))) /\
  (forall i, ~ moved r i -> cell (set_center s r v) i = cell s i).
Proof.
  intros I R. pose proof (ri_cells s I) as L. destruct (ri_racks s I r R) as (P & _).
  assert (B : forall x, In x (rack_locs r) -> (2 <= x < length (rs_cells s))%nat).
  { intros x X. apply (ri_locs s I x), (in_locs s r); assumption. }
  pose proof (NoDup_sub s r I R) as N.
  assert (ND : NoDup [fst (rl_a r); snd (rl_a r); fst (rl_p r); snd (rl_p r); fst (rl_d r); snd (rl_d r); fst (rl_o r); snd (rl_o r)]).
  { rewrite P. cbn [fst snd]. change [fst (rl_a r); snd (rl_a r); 0%nat; 1%nat; fst (rl_d r); snd (rl_d r); fst (rl_o r); snd (rl_o r)]
      with ([fst (rl_a r); snd (rl_a r)] ++ 0%nat :: [1%nat; fst (rl_d r); snd (rl_d r); fst (rl_o r); snd (rl_o r)]).
    apply NoDup_Add with (a := 0%nat) (l := [fst (rl_a r); snd (rl_a r)] ++ 1%nat :: [fst (rl_d r); snd (rl_d r); fst (rl_o r); snd (rl_o r)]).
    { apply Add_app. }
    split.
    - apply NoDup_Add with (a := 1%nat) (l := [fst (rl_a r); snd (rl_a r)] ++ [fst (rl_d r); snd (rl_d r); fst (rl_o r); snd (rl_o r)]).
      { apply Add_app. }
      split; [exact N|]. intros H. apply (B 1%nat) in H. lia.
    - intros H. assert (X : In 0%nat (rack_locs r)) by (unfold rack_locs; cbn [In app] in *; intuition discriminate).
      apply B in X. lia. }
  split; intros i M; unfold cell, set_center; cbn [rs_cells].
  - apply iadds_in; [exact ND| |].
    + rewrite P. cbn [fst snd In]. destruct M as [M|M].
      * destruct i as [|[|i]]; [tauto|tauto|lia].
      * apply locs_ends in M. intuition.
    + destruct M as [M|M]; [lia|]. apply B in M. lia.
  - apply iadds_other. rewrite P. cbn [fst snd In]. intros H. apply M. unfold moved.
    rewrite locs_ends. intuition lia.
Qed.

Lemma rl_center_eq s r : rack_inv s -> In r (rs_racks s) ->
  cell s 0 = vadd (rl_center s r) UP /\ cell s 1 = vadd (rl_center s r) DOWN.
Proof.
  intros I R. destruct (ri_up s I) as (c & U & D). destruct (ri_racks s I r R) as (P & _).
  assert (E : rl_center s r = c).
  { unfold rl_center. rewrite P. cbn [fst snd]. rewrite U, D. clear. destruct c. apply vec_eq; vec_simpl; field. }
  rewrite E. auto.
Qed.

Lemma disjoint_racks s i j r q : rack_inv s -> nth_error (rs_racks s) i = Some r -> nth_error (rs_racks s) j = Some q ->
  i <> j -> forall x, In x (rack_locs r) -> ~ In x (rack_locs q).
Proof.
  intros I. pose proof (ri_nodup s I) as N. revert i j N. generalize (rs_racks s). clear.
  induction l as [|a l IH]; intros i j N Hi Hj D x X Y.
  - destruct i; discriminate.
  - cbn [flat_map] in N. assert (ND : NoDup (flat_map rack_locs l)).
    { revert N. generalize (rack_locs a). clear. induction l0 as [|y l0 IH]; cbn; intros N; [exact N|].
      inversion N; subst. apply IH. assumption. }
    assert (SEP : forall y, In y (rack_locs a) -> ~ In y (flat_map rack_locs l)).
    { revert N. generalize (rack_locs a). clear. induction l0 as [|z l0 IH]; cbn; intros N y Y; [destruct Y|].
      inversion N as [|? ? NI N']; subst. destruct Y as [->|Y].
      - intros H. apply NI, in_or_app. right. exact H.
      - apply IH; assumption. }
    destruct i as [|i], j as [|j]; cbn in Hi, Hj; try congruence.
    + injection Hi as ->. apply (SEP x X). apply in_flat_map. exists q. split; [eapply nth_error_In, Hj|exact Y].
    + injection Hj as ->. apply (SEP x Y). apply in_flat_map. exists r. split; [eapply nth_error_In, Hi|exact X].
    + apply (IH i j ND Hi Hj) with x; auto.
Qed.

Lemma inv_set s i r v : rack_inv s -> nth_error (rs_racks s) i = Some r -> rack_inv (set_center s r v).
Proof.
  intros I Hr. pose proof (nth_error_In _ _ Hr) as R. destruct (set_cells s r v I R) as (MV & ST).
  assert (LE : length (rs_cells (set_center s r v)) = length (rs_cells s)) by apply iadds_length.
  split.
  - rewrite LE. apply (ri_cells s I).
  - intros q Q. change (In q (rs_racks s)) in Q. destruct (ri_racks s I q Q) as (P & A & D & O).
    apply In_nth_error in Q. destruct Q as (j & Hj).
    assert (B : forall x, In x (rack_locs q) -> (2 <= x)%nat).
    { intros x X. apply (ri_locs s I x), (in_locs s q); [eapply nth_error_In, Hj|assumption]. }
    assert (ALL : (forall x, In x (rack_locs q) -> moved r x) \/ (forall x, In x (rack_locs q) -> ~ moved r x)).
    { destruct (Nat.eq_dec i j) as [<-|NE].
      - left. intros x X. right. congruence.
      - right. intros x X [M|M]; [apply B in X; lia|].
        apply (disjoint_racks s i j r q I Hr Hj NE x M X). }
    unfold rack_ok, point_line in *.
    destruct ALL as [ALL|ALL].
    + rewrite !MV by (apply ALL, locs_ends; auto 7). rewrite A, D, O. auto.
    + rewrite !ST by (apply ALL, locs_ends; auto 7). auto.
  - intros x X. rewrite LE. apply (ri_locs s I x X).
  - apply (ri_nodup s I).
  - destruct (rl_center_eq s r I R) as (U & D). exists v.
    rewrite !MV by (left; lia). rewrite U, D. split; clear; destruct v, (rl_center s r); apply vec_eq; vec_simpl; ring.
Qed.

Lemma inv_run l : forall s, rack_inv s -> rack_inv (rack_run s l).
Proof.
  induction l as [|o l IH]; intros s I; cbn; [exact I|]. apply IH. destruct o as [ha hd ho|i v]; cbn.
  - apply inv_new, I.
  - destruct (nth_error (rs_racks s) i) as [r|] eqn:E; [|exact I]. eapply inv_set; eassumption.
Qed.

Lemma inv_init : rack_inv rs_init.
Proof.
  split; cbn [rs_cells rs_racks rs_init flat_map length In].
  - lia.
  - tauto.
  - tauto.
  - constructor.
  - exists ORIGIN. split; apply vec_eq; unfold cell; cbn; ring.
Qed.

(** Over any history of creating reference lines and moving them: the addendum, dedendum and
    outside lines have length 0, the pitch line length 2. *)
Theorem C52_lengths l r : let s := rack_run rs_init l in In r (rs_racks s) ->
  line_length s (rl_a r) = 0 /\ line_length s (rl_d r) = 0 /\ line_length s (rl_o r) = 0 /\
  line_length s (rl_p r) = 2.
Proof.
  intros s R. pose proof (inv_run l _ inv_init) as I. fold s in I.
  destruct (ri_racks s I r R) as (P & A & D & O). unfold line_length, point_line in *.
  rewrite A, D, O, !vsub_diag, norm_ORIGIN. repeat split.
  rewrite P. cbn [fst snd]. destruct (rl_center_eq s r I R) as (-> & ->).
  apply norm_eq; [lra|]. generalize (rl_center s r). clear. intros [x y z]. vec_simpl. ring.
Qed.

(** Moving the reference lines of one rack to [v], after any history, makes the library's constants
    UP and DOWN equal to v + (0,1,0) and v - (0,1,0), and moves the pitch line of every rack. *)
Theorem C52_global l i v r : let s := rack_run rs_init l in nth_error (rs_racks s) i = Some r ->
  let s' := rack_run rs_init (l ++ [SetCenter i v]) in
  cell s' 0 = vadd v (V 0 1 0) /\ cell s' 1 = vsub v (V 0 1 0) /\
  forall q, In q (rs_racks s') -> rl_center s' q = v.
Proof.
  intros s Hr s'. pose proof (inv_run l _ inv_init) as I. fold s in I.
  pose proof (nth_error_In _ _ Hr) as R. pose proof (inv_set s i r v I Hr) as I'.
  assert (E : s' = set_center s r v).
  { unfold s', rack_run. rewrite fold_left_app. cbn. fold (rack_run rs_init l). fold s. rewrite Hr. reflexivity. }
  rewrite E. destruct (set_cells s r v I R) as (MV & _). destruct (rl_center_eq s r I R) as (U & D).
  assert (U' : cell (set_center s r v) 0 = vadd v (V 0 1 0)).
  { rewrite MV by (left; lia). rewrite U. generalize (rl_center s r). clear. intros c. destruct v, c. apply vec_eq; vec_simpl; ring. }
  assert (D' : cell (set_center s r v) 1 = vsub v (V 0 1 0)).
  { rewrite MV by (left; lia). rewrite D. generalize (rl_center s r). clear. intros c. destruct v, c. apply vec_eq; vec_simpl; ring. }
  split; [exact U'|]. split; [exact D'|]. intros q Q.
  destruct (ri_racks _ I' q Q) as (P & _). unfold rl_center. rewrite P. cbn [fst snd]. rewrite U', D'.
  clear. destruct v. apply vec_eq; vec_simpl; field.
Qed.

(** The other lines only move with their own rack, so those of every other rack are left behind its
    pitch line by exactly the movement. *)
Theorem C52_other_racks l i v r j q : let s := rack_run rs_init l in
  nth_error (rs_racks s) i = Some r -> nth_error (rs_racks s) j = Some q ->
  let s' := rack_run rs_init (l ++ [SetCenter i v]) in
  forall g, g = rl_a q \/ g = rl_d q \/ g = rl_o q ->
  line_gap s' q g = line_gap s q g - (if Nat.eq_dec i j then 0 else vx v - vx (rl_center s r)).
Proof.
  intros s Hr Hq s' g G. pose proof (inv_run l _ inv_init) as I. fold s in I.
  pose proof (nth_error_In _ _ Hr) as R. pose proof (nth_error_In _ _ Hq) as Q.
  destruct (C52_global l i v r Hr) as (_ & _ & C). fold s s' in C.
  assert (E : s' = set_center s r v).
  { unfold s', rack_run. rewrite fold_left_app. cbn. fold (rack_run rs_init l). fold s. rewrite Hr. reflexivity. }
  unfold line_gap. rewrite C by (rewrite E; exact Q). rewrite E.
  destruct (set_cells s r v I R) as (MV & ST).
  assert (CE : rl_center s q = rl_center s r).
  { destruct (ri_racks s I q Q) as (P & _), (ri_racks s I r R) as (P' & _). unfold rl_center. rewrite P, P'. reflexivity. }
  rewrite CE.
  assert (M : In (fst g) (rack_locs q)) by (apply locs_ends; intuition (subst; auto 7)).
  destruct (Nat.eq_dec i j) as [<-|NE].
  - assert (r = q) by congruence. subst q. rewrite MV by (right; exact M).
    generalize (rl_center s r) (cell s (fst g)). clear. intros a b. destruct v, a, b. vec_simpl. ring.
  - rewrite ST; [ring|]. intros [L|L].
    + apply (in_locs s q _ Q), (ri_locs s I) in M. lia.
    + apply (disjoint_racks s i j r q I Hr Hq NE (fst g) L M).
Qed.

(** A tooth flank is mirrored in the plane normal to UP (core 527); with UP changed to v + (0,1,0)
    this is the mirror in the plane y = 0 only for moves along y. *)
Theorem C52_mirror_plane v :
  (forall p, mirror_func (normalize (vadd v (V 0 1 0))) ORIGIN p = V (vx p) (- vy p) (vz p)) <->
  vx v = 0 /\ vz v = 0 /\ vy v <> -1.
Proof.
  destruct v as [a b c]. cbn [vx vy vz].
  replace (vadd (V a b c) (V 0 1 0)) with (V a (b + 1) c) by (apply vec_eq; vec_simpl; ring).
  split.
  - intros H. specialize (H (V 0 1 0)). unfold mirror_func, normalize in H.
    set (k := / norm (V a (b + 1) c)) in H.
    pose proof (f_equal vx H) as H1. pose proof (f_equal vy H) as H2. pose proof (f_equal vz H) as H3.
    clear H. revert H1 H2 H3. vec_simpl. intros H1 H2 H3.
    assert (K : (k * (b + 1)) * (k * (b + 1)) = 1) by nra.
    assert (k * a = 0) by (clear - H1 K; nsatz). assert (k * c = 0) by (clear - H3 K; nsatz).
    assert (k <> 0) by (intros Z; rewrite Z in K; lra).
    repeat split.
    + destruct (Rmult_integral _ _ H); [contradiction|assumption].
    + destruct (Rmult_integral _ _ H0); [contradiction|assumption].
    + intros B. rewrite B in K. replace (-1 + 1) with 0 in K by ring. lra.
  - intros (-> & -> & B) [x y z]. unfold mirror_func, normalize.
    assert (N : norm (V 0 (b + 1) 0) = Rabs (b + 1)).
    { apply norm_eq; [apply Rabs_pos|]. rewrite <- Rabs_mult. rewrite Rabs_right by nra. vec_simpl. ring. }
    rewrite N. assert (K : / Rabs (b + 1) * (b + 1) * (/ Rabs (b + 1) * (b + 1)) = 1).
    { assert (b + 1 <> 0) by lra. unfold Rabs. destruct (Rcase_abs (b + 1)); field; lra. }
    set (k := / Rabs (b + 1)) in *. vec_simpl. apply vec_eq; vec_simpl; nsatz.
Qed.

(** Two racks; the first is moved to (5,0,0).  The second one's addendum line is then 4 to the left of
    its pitch line instead of 1 to the right, and teeth made afterwards are mirrored in a wrong plane. *)
Example C52_example :
  let l := [NewLines 1 1.25 2; NewLines 1 1.25 2] in
  let s := rack_run rs_init l in let s' := rack_run rs_init (l ++ [SetCenter 0 (V 5 0 0)]) in
  exists q, nth_error (rs_racks s) 1 = Some q /\
  line_gap s q (rl_a q) = 1 /\ line_gap s' q (rl_a q) = -4 /\ cell s' 0 = V 5 1 0 /\
  ~ (forall p, mirror_func (normalize (cell s' 0)) ORIGIN p = V (vx p) (- vy p) (vz p)).
Proof.
  intros l s s'. eexists. split; [reflexivity|].
  assert (U : cell s' 0 = V 5 1 0).
  { destruct (C52_global l 0 (V 5 0 0) _ eq_refl) as (U & _). unfold s'. rewrite U. apply vec_eq; vec_simpl; ring. }
  repeat split.
  - unfold line_gap, rl_center, cell. cbn. lra.
  - unfold s'. erewrite (C52_other_racks l 0 (V 5 0 0) _ 1); [|reflexivity|reflexivity|left; reflexivity].
    unfold line_gap, rl_center, cell. cbn. lra.
  - exact U.
  - rewrite U. replace (V 5 1 0) with (vadd (V 5 0 0) (V 0 1 0)) by (apply vec_eq; vec_simpl; ring).
    intros H. apply C52_mirror_plane in H. cbn in H. lra.
Qed.
