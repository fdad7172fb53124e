(** Property C113: contact of meshed bevel gears. *)
From Coq Require Import Nsatz Reals List ZArith Lra Bool Lia.
From Coquelicot Require Import Coquelicot.
From Verif Require Import Num Vec Transform TransformProps Params ParamsProps Coords CoordsProps Interp Curve CurveLem CurveProps Chain ChainLem ChainProps
  GearMath Tooth Wrapper GearLem MeshAngleProps MeshProps BevelProps
  ArcLem ArcProps Info RefLines RefLinesProps Profile ProfileLem ProfileProps Build Fillet FilletProps FlankProps Teeth Report
  ReportProps RackConjProps SpurProps OctoidProps OctoidLem OctoidFlankProps.
Import ListNotations.
Open Scope R_scope.

(** ** Specification *)
(** The point [q] of the section at the height [z], on the tooth number [k], when the gear has been turned by [x] pitches. *)
Definition in_space (g : igear) (n : Z) (x z : R) (k : Z) (q : vec) : vec :=
  apply_gear_transform (apply_gear_transform (mapp (rotz (IZR k * (2 * PI / IZR n))) q) (k_slice (ig_core g) z)) (MeshAngleProps.turned (k_trf (ig_core g)) n x).
(** One of the two flanks of the tooth: where the gear has turned by [pia - t] it touches the crown rack at its point [t]. *)
Definition flank (up : bool) (g : igear) (n : Z) (gm z t : R) : vec :=
  let q := bevel_pt (IZR n / 2) gm (ip_alpha (ig_in g)) (ig_pia g z) t in if up then flip q else q.

(** ** Lemmas *)
Lemma conical_core g n gm : conical g n gm -> 0 < gm < PI / 2 -> let k := ig_core g in let S := slant (IZR n / 2) gm in
  k_gamma k = gm /\ num_teeth (k_tooth k) = IZR n /\ 0 < S /\ S * sin gm = IZR n / 2 /\ IZR n / 2 / tan gm = S * cos gm /\
  apex_of g gm = vadd (base_of g) (smul (ip_module (ig_in g) * (S * cos gm)) (axis_of g)) /\
  pitch_r g / sin gm = ip_module (ig_in g) * S.
Proof.
  intros H G. cbv zeta. assert (N : 0 < IZR n) by (apply IZR_lt, (co_n _ _ _ H)). assert (SG : 0 < sin gm) by (apply sin_gt_0; lra).
  assert (CG : 0 < cos gm) by (apply cos_gt_0; lra).
  split; [rewrite (co_core _ _ _ H); cbn [with_trf calc_params k_gamma]; rewrite (co_cone _ _ _ H); field|].
  split; [rewrite (k_tooth_con _ _ _ H); reflexivity|].
  split; [unfold slant; apply Rdiv_lt_0_compat; lra|]. split; [unfold slant; field; lra|].
  split; [unfold slant, tan; field; lra|]. split; [|unfold pitch_r, slant; rewrite (co_teeth _ _ _ H); field; lra].
  unfold apex_of. f_equal. f_equal. unfold pitch_r, slant. rewrite (co_teeth _ _ _ H). field. lra.
Qed.

(** A point of a section, seen from the apex. *)
Lemma in_space_apex g n gm x z k q : conical g n gm -> 0 < gm < PI / 2 -> let S := slant (IZR n / 2) gm in
  let T := k_trf (ig_core g) in
  in_space g n x z k q = vadd (apex_of g gm) (smul (ip_module (ig_in g) * ((S - z) / S))
    (mapp (g_orient T) (mapp (rotz (g_angle T + (x + IZR k) * (2 * PI / IZR n) + z * k_spiral (ig_core g))) (vsub q (V 0 0 (IZR n / 2 / tan gm)))))).
Proof.
  intros H G S T. destruct (conical_core g n gm H G) as (KG & KN & S0 & SS & ST & AP & _). fold S in S0, SS, ST, AP.
  unfold in_space. rewrite !apply_gear_transform_eq. cbn [MeshAngleProps.turned k_slice g_scale g_orient g_center g_angle]. fold T. rewrite AP, KG, KN, mapp_I, ST.
  assert (SC : 1 - z * 2 * sin gm / IZR n = (S - z) / S).
  { assert (N : 0 < IZR n) by (apply IZR_lt, (co_n _ _ _ H)). assert (SG : 0 < sin gm) by (apply sin_gt_0; lra).
    replace (IZR n) with (2 * (S * sin gm)) by (rewrite SS; field). field. split; lra. }
  rewrite SC. change (g_scale T) with (g_scale (k_trf (ig_core g))). rewrite (co_scale _ _ _ H). unfold base_of, axis_of, g_z_axis. fold T.
  set (p := 2 * PI / IZR n). set (m := ip_module (ig_in g)). set (a := g_angle T). set (sp := k_spiral (ig_core g)).
  replace (a + (x + IZR k) * p + z * sp) with (a + x * p + (z * sp + IZR k * p)) by ring. rewrite <- !rotz_plus, !mapp_mmul.
  assert (RO : forall b, mapp (rotz b) OUT = OUT) by (intros; apply vec_eq; vec_simpl; ring).
  replace (V 0 0 (S * cos gm)) with (smul (S * cos gm) OUT) by (apply vec_eq; vec_simpl; ring).
  rewrite !mapp_vsub, !mapp_vadd, !mapp_smul, !RO.
  generalize (mapp (rotz (a + x * p)) (mapp (rotz (z * sp)) (mapp (rotz (IZR k * p)) q))). intros v. generalize (g_orient T) (g_center T). intros O c.
  generalize (cos gm). clear - S0 O v c. clearbody S m. intros h. destruct O, v, c. apply vec_eq; vec_simpl; field; lra.
Qed.

(** The pitch cone's line of contact, seen from both gears. *)
Lemma crown_half gm1 gm2 v :
  mapp (roty (- (gm1 + gm2))) (mapp (rotz PI) (mapp (roty (PI / 2 - gm1)) v)) = mapp (roty (PI / 2 - gm2)) (V (vx v) (- vy v) (- vz v)).
Proof.
  pose proof (sc1 gm1) as A. destruct v as [x y z]. apply vec_eq; vec_simpl; rewrite ?cos_neg, ?sin_neg, ?cos_plus, ?sin_plus, ?cos_shift, ?sin_shift, ?cos_PI, ?sin_PI;
  generalize dependent (sin gm1); generalize (cos gm1); intros; nsatz.
Qed.
Lemma foot_half S alpha b : let f := foot S (pole alpha b) in foot S (pole alpha (- b)) = V (vx f) (- vy f) (- vz f).
Proof.
  cbv zeta. unfold foot. replace (dot RIGHT (pole alpha (- b)) * dot RIGHT (pole alpha (- b))) with (dot RIGHT (pole alpha b) * dot RIGHT (pole alpha b))
    by (unfold pole; vec_simpl; rewrite ?cos_neg, ?sin_neg; ring).
  generalize (S / sqrt (1 - dot RIGHT (pole alpha b) * dot RIGHT (pole alpha b))). intros k. unfold pole. apply vec_eq; vec_simpl; rewrite ?cos_neg, ?sin_neg; ring.
Qed.
Lemma rodrigues_axis k th : dot k k = 1 -> mapp (rodrigues k th) k = k.
Proof.
  intros K. rewrite mapp_rodrigues, K. destruct k as [a b c]. apply vec_eq; vec_simpl; ring.
Qed.

(** The orientation of the moved gear in the frame of the pitch point: [F] has the columns towards the pitch point, across, along the axis of the other gear. *)
Lemma mesh_frame O z u th psi : orthogonal O -> z = col3 O -> u = dir O psi -> forall v,
  mapp (mmul (rodrigues (cross u z) th) O) (mapp (rotz psi) v) = mapp O (mapp (rotz psi) (mapp (roty (- th)) v)).
Proof.
  intros HO Z U v. assert (UU : dot u u = 1) by (rewrite U; apply dir_dot, HO). assert (ZZ : dot z z = 1) by (rewrite Z; apply col3_unit, HO).
  assert (UZ : dot u z = 0) by (rewrite U, Z; apply dir_z, HO).
  assert (KK : dot (cross u z) (cross u z) = 1) by (apply cross_unit; assumption).
  pose proof (turn_u u z th UU ZZ UZ) as TU. pose proof (turn_z u z th UU ZZ UZ) as TZ. pose proof (rodrigues_axis (cross u z) th KK) as TK.
  set (y := dir' O psi).
  (* the axis of the turn is across, up to sign *)
  assert (Y : exists e, y = smul e (cross u z)).
  { exists (dot y (cross u z)). assert (YU : dot y u = 0) by (rewrite U, dot_comm; apply dir_dir'_dot, HO).
    assert (YZ : dot y z = 0). { rewrite Z. unfold y. replace (col3 O) with (mapp O OUT) by vec_ring. unfold dir'. rewrite orthogonal_dot by exact HO. vec_simpl. ring. }
    clear - UU ZZ UZ YU YZ. clearbody y. destruct y as [a b c], u as [d e f], z as [g h i]. vec_simpl. apply vec_eq; cbn [vx vy vz]; nsatz. }
  destruct Y as (e & Y).
  assert (E : forall w, mapp O (mapp (rotz psi) w) = vadd (vadd (smul (vx w) u) (smul (vy w) y)) (smul (vz w) z)).
  { intros w. rewrite U, Z. unfold y, dir, dir'. destruct O, w. apply vec_eq; vec_simpl; ring. }
  rewrite mapp_mmul, !E, !mapp_vadd, !mapp_smul, TU, TZ. rewrite Y, mapp_smul, TK. clear. generalize (cross u z). intros k.
  destruct u, z, k, v. apply vec_eq; vec_simpl; rewrite ?cos_neg, ?sin_neg; ring.
Qed.

Lemma vsub_of_vadd (x y : vec) : vsub (vadd x y) x = y.
Proof. destruct x, y. vec_ring. Qed.
Lemma smul_opp_opp r (w : vec) : smul (- r) w = smul r (vopp w).
Proof. destruct w. vec_ring. Qed.

(** Turning about the axis of a gear whose cone has the half angle [PI / 2 - b], in the frame of the crown wheel. *)
Definition spin (b e : R) (v : vec) : vec := mapp (roty (- b)) (mapp (rotz e) (mapp (roty b) v)).
Definition half (v : vec) : vec := V (vx v) (- vy v) (- vz v).
Lemma roty_back b v : mapp (roty b) (mapp (roty (- b)) v) = v.
Proof.
  pose proof (sc1 b) as E. destruct v as [x y z]. apply vec_eq; vec_simpl; rewrite ?cos_neg, ?sin_neg; generalize dependent (sin b); generalize (cos b); intros; nsatz.
Qed.
Lemma spin_0 b v : spin b 0 v = v.
Proof.
  unfold spin. rewrite rotz_0, mapp_I. pose proof (roty_back (- b) v) as E. rewrite Ropp_involutive in E. exact E.
Qed.
Lemma spin_flip b e v : spin b (- e) (flip v) = flip (spin b e v).
Proof. unfold spin, flip. destruct v as [x y z]. apply vec_eq; vec_simpl; rewrite ?cos_neg, ?sin_neg; ring. Qed.
Lemma dot_flip v w : dot (flip v) (flip w) = dot v w.
Proof. unfold flip. destruct v, w. vec_simpl. ring. Qed.
Lemma dot_half v w : dot v (half w) = dot (half v) w.
Proof. unfold half. destruct v, w. vec_simpl. ring. Qed.
Lemma half_pole alpha b : half (pole alpha b) = vopp (pole alpha (- b)).
Proof. unfold half, pole. apply vec_eq; vec_simpl; rewrite ?cos_neg, ?sin_neg; ring. Qed.
Lemma half_flip v : half (flip v) = flip (half v).
Proof. unfold half, flip. apply vec_eq; vec_simpl; ring. Qed.

(** The normal speed of a point of the flank, turning about the axis of the gear. *)
Lemma spin_speed n gm w x p : is_derive (fun y => dot n (spin (PI / 2 - gm) ((y - x) * p) w)) x
  (p * (sin gm * (vy n * vx w - vx n * vy w) + cos gm * (vy n * vz w - vz n * vy w))).
Proof.
  unfold spin. destruct n as [a b c], w as [d e f]. vec_simpl. rewrite !cos_neg, !sin_neg, cos_shift, sin_shift.
  generalize (sin gm) (cos gm) (sc1 gm). intros s k E. auto_derive; [exact I|].
  replace ((x + - x) * p) with 0 by ring. rewrite cos_0, sin_0. nsatz.
Qed.

Definition sided (up : bool) (v : vec) : vec := if up then flip v else v.
Definition signed (up : bool) (e : R) : R := if up then - e else e.
Lemma spin_sided up b e v : spin b (signed up e) (sided up v) = sided up (spin b e v).
Proof. destruct up; cbn [signed sided]; [apply spin_flip|reflexivity]. Qed.
Lemma half_sided up v : half (sided up v) = sided up (half v).
Proof. destruct up; cbn [sided]; [apply half_flip|reflexivity]. Qed.
Lemma dot_sided up v w : dot (sided up v) (sided up w) = dot v w.
Proof. destruct up; cbn [sided]; [apply dot_flip|reflexivity]. Qed.
Lemma sided_vopp up v : sided up (vopp v) = vopp (sided up v).
Proof. destruct up; cbn [sided]; [|reflexivity]. unfold flip. apply vec_eq; vec_simpl; ring. Qed.
Lemma flank_local up g n gm z t : vsub (flank up g n gm z t) (V 0 0 (IZR n / 2 / tan gm)) =
  mapp (rotz (signed up (t - ig_pia g z))) (mapp (roty (PI / 2 - gm)) (sided up (foot (slant (IZR n / 2) gm) (pole (ip_alpha (ig_in g)) (- t * sin gm))))).
Proof.
  unfold flank, bevel_pt, RackConjProps.turned, crown_to_gear, pitch_apex. cbv zeta. generalize (foot (slant (IZR n / 2) gm) (pole (ip_alpha (ig_in g)) (- t * sin gm))). intros v.
  generalize (IZR n / 2 / tan gm). intros h. replace (- (ig_pia g z - t)) with (t - ig_pia g z) by ring. generalize (t - ig_pia g z). intros e.
  destruct up; cbn [sided signed]; unfold flip; destruct v as [x y w]; apply vec_eq; vec_simpl; rewrite ?cos_neg, ?sin_neg; ring.
Qed.

(** A flank in the frame of its crown wheel, which has turned to the place where it touches at [t]; its distance from the flank of the crown wheel. *)
Definition lag (rp gm alpha t u : R) : R := dot (pole alpha (- t * sin gm)) (spin (PI / 2 - gm) (u - t) (foot (slant rp gm) (pole alpha (- u * sin gm)))).
Lemma lag_gap rp gm alpha t u pia : lag rp gm alpha t u = gap_to_rack rp gm alpha pia (pia - t) (bevel_pt rp gm alpha pia u).
Proof.
  unfold bevel_pt. rewrite gap_turned. unfold lag, spin. replace ((pia - t - pia) * sin gm) with (- t * sin gm) by ring.
  replace (pia - t - (pia - u)) with (u - t) by ring. reflexivity.
Qed.
Lemma lag_tangent rp gm alpha t : bevel rp gm alpha -> lag rp gm alpha t t = 0 /\ is_derive (fun u => lag rp gm alpha t u) t 0.
Proof.
  intros B. set (ts := mkTs (fun _ _ _ _ _ => (false, 0, 0)) (fun _ _ _ _ _ => (false, 0)) (fun _ g => g) (fun _ g => (0, g)) (fun r _ _ => (0, r))). split.
  - rewrite (lag_gap _ _ _ _ _ 0). pose proof (C96_law ts rp gm alpha 0 t B) as (K & _). rewrite flank_back in K by exact B. exact K.
  - apply is_derive_ext with (fun u => gap_to_rack rp gm alpha 0 (0 - t) (c_fun (octoid_flank ts rp alpha 0 (2 * gm)) u)).
    + intros u. rewrite (lag_gap _ _ _ _ _ 0), flank_back by exact B. reflexivity.
    + apply C96_tangent, B.
Qed.
Lemma is_derive_val (f : R -> R) (x l m : R) : is_derive f x l -> l = m -> is_derive f x m.
Proof. intros D E. rewrite <- E. exact D. Qed.
Lemma is_derive_shift (h : R -> R) (A r x l : R) : is_derive h x l -> is_derive (fun y => A + r * h y) x (r * l).
Proof.
  intros D. apply (is_derive_val _ _ (0 + r * l)); [|ring]. apply (is_derive_plus (fun _ : R => A) (fun y : R => r * h y)).
  - apply (is_derive_const (K := R_AbsRing) (V := R_NormedModule) A x). - apply (is_derive_scal h x r l D).
Qed.
(** The speed across the rack flank of the point where a flank touches it. *)
Definition rack_speed (rp gm alpha b : R) : R := slant rp gm / sqrt (1 - dot RIGHT (pole alpha b) * dot RIGHT (pole alpha b)) * (cos alpha * cos b).
Lemma foot_speed rp gm alpha b p x : let n := pole alpha b in
  is_derive (fun y => dot n (spin (PI / 2 - gm) ((y - x) * p) (foot (slant rp gm) n))) x (- (p * sin gm * rack_speed rp gm alpha b)).
Proof.
  cbv zeta. pose proof (spin_speed (pole alpha b) gm (foot (slant rp gm) (pole alpha b)) x p) as K. refine (is_derive_val _ _ _ _ K _).
  unfold rack_speed, foot. generalize (slant rp gm / sqrt (1 - dot RIGHT (pole alpha b) * dot RIGHT (pole alpha b))). intros k. unfold pole. vec_simpl. ring.
Qed.

(** How fast the flank turns away from the rack flank. *)
Definition at_x (gm alpha t u : R) : R := side_x gm alpha (reach_sin gm alpha u) * cos (u - t) - side_y gm alpha u * sin (u - t).
Definition at_y (gm alpha t u : R) : R := side_x gm alpha (reach_sin gm alpha u) * sin (u - t) + side_y gm alpha u * cos (u - t).
Definition at_z (gm alpha u : R) : R := let w := reach_sin gm alpha u in (1 - w * w) * cos gm - w * (sin alpha * sin gm).
Definition roll_margin (gm alpha t u : R) : R :=
  sin alpha * at_x gm alpha t u + sin gm * cos alpha * sin (t * sin gm) * (at_x gm alpha t u * cos gm - at_z gm alpha u * sin gm) -
  cos alpha * cos (t * sin gm) * cos gm * at_y gm alpha t u.
Definition ell (gm alpha t u : R) : R := - (cos alpha * sin (t * sin gm)) * (at_x gm alpha t u * sin gm + at_z gm alpha u * cos gm) -
  cos alpha * cos (t * sin gm) * at_y gm alpha t u + sin alpha * (at_x gm alpha t u * cos gm - at_z gm alpha u * sin gm).
Definition ell' (gm alpha t u : R) : R := cos alpha * cos (t * sin gm) * (at_x gm alpha t u * cos gm - at_z gm alpha u * sin gm) + sin alpha * at_y gm alpha t u.

Lemma lag_ell rp gm alpha t u : lag rp gm alpha t u = slant rp gm / sqrt (1 - reach_sin gm alpha u * reach_sin gm alpha u) * ell gm alpha t u.
Proof.
  unfold lag, foot, spin.
  assert (E : dot RIGHT (pole alpha (- u * sin gm)) = - reach_sin gm alpha u).
  { unfold reach_sin, pole. replace (- u * sin gm) with (- (u * sin gm)) by ring. vec_simpl. rewrite ?cos_neg, ?sin_neg. ring. }
  rewrite E, Rmult_opp_opp. generalize (slant rp gm / sqrt (1 - reach_sin gm alpha u * reach_sin gm alpha u)). intros k.
  unfold ell, at_x, at_y, at_z, side_x, side_y, pole. cbv zeta. unfold reach_sin. replace (- t * sin gm) with (- (t * sin gm)) by ring. replace (- u * sin gm) with (- (u * sin gm)) by ring.
  vec_simpl. rewrite !cos_neg, !sin_neg, ?cos_shift, ?sin_shift. pose proof (sc1 (u * sin gm)) as A. pose proof (sc1 alpha) as B. pose proof (sc1 gm) as C.
  generalize dependent (sin (u * sin gm)); generalize (cos (u * sin gm)); generalize (sin (t * sin gm)) (cos (t * sin gm)); generalize dependent (sin alpha); generalize (cos alpha);
  generalize dependent (sin gm); generalize (cos gm) (cos (u - t)) (sin (u - t)); intros; nsatz.
Qed.
Lemma ell_self gm alpha u : ell gm alpha u u = 0 /\ ell' gm alpha u u = 0.
Proof.
  unfold ell, ell', at_x, at_y, at_z, side_x, side_y. cbv zeta. unfold reach_sin. rewrite Rminus_eq_0, cos_0, sin_0.
  pose proof (sc1 (u * sin gm)) as A. pose proof (sc1 alpha) as B. pose proof (sc1 gm) as C.
  generalize dependent (sin (u * sin gm)); generalize (cos (u * sin gm)); generalize dependent (sin alpha); generalize (cos alpha);
  generalize dependent (sin gm); generalize (cos gm); intros; split; nsatz.
Qed.
Lemma ell_derive gm alpha t u : is_derive (fun x => ell gm alpha x u) t (cos gm * ell' gm alpha t u).
Proof.
  unfold ell, ell', at_x, at_y, at_z. cbv zeta. generalize (side_x gm alpha (reach_sin gm alpha u)) (side_y gm alpha u) ((1 - reach_sin gm alpha u * reach_sin gm alpha u) * cos gm - reach_sin gm alpha u * (sin alpha * sin gm)).
  intros a b c. pose proof (sc1 gm) as C. auto_derive; [exact I|].
  unfold Rminus. generalize (sin (t * sin gm)) (cos (t * sin gm)) (sin alpha) (cos alpha) (cos (u + - t)) (sin (u + - t)).
  generalize dependent (sin gm). generalize (cos gm). intros. eqR. nsatz.
Qed.
Lemma ell'_derive gm alpha t u : is_derive (fun x => ell' gm alpha x u) t (- roll_margin gm alpha t u).
Proof.
  unfold roll_margin, ell', at_x, at_y, at_z. cbv zeta. generalize (side_x gm alpha (reach_sin gm alpha u)) (side_y gm alpha u) ((1 - reach_sin gm alpha u * reach_sin gm alpha u) * cos gm - reach_sin gm alpha u * (sin alpha * sin gm)).
  intros a b c. auto_derive; [exact I|]. unfold Rminus. eqR. ring.
Qed.

(** The points of the flank between [lo] and [hi] turn away from the rack flank on both sides of the point of contact. *)
Definition clears (gm alpha lo hi : R) : Prop := forall t u, lo <= t <= hi -> lo <= u <= hi -> 0 < roll_margin gm alpha t u.

Lemma lag_side rp gm alpha lo hi t u : bevel rp gm alpha -> clears gm alpha lo hi -> lo <= t <= hi -> lo <= u <= hi -> t <> u -> lag rp gm alpha t u < 0.
Proof.
  intros B CL T U NE. pose proof B as [R0 G A]. rewrite lag_ell. destruct (ell_self gm alpha u) as (E0 & E1).
  assert (K : 0 < slant rp gm / sqrt (1 - reach_sin gm alpha u * reach_sin gm alpha u)).
  { apply Rdiv_lt_0_compat; [apply slant_pos; lra|]. apply sqrt_lt_R0, below_one, reach_sin_lt, A. }
  assert (CG : 0 < cos gm) by (apply cos_gt_0; lra).
  assert (D0 : forall x, derivable_pt_lim (fun y => ell gm alpha y u) x (cos gm * ell' gm alpha x u)) by (intros x; apply is_derive_Reals, ell_derive).
  assert (D1 : forall x, derivable_pt_lim (fun y => ell' gm alpha y u) x (- roll_margin gm alpha x u)) by (intros x; apply is_derive_Reals, ell'_derive).
  assert (EL : ell gm alpha t u < 0).
  { destruct (Rtotal_order t u) as [L|[L|L]]; [|contradiction|].
    - destruct (MVT_cor2 (fun y => ell gm alpha y u) (fun x => cos gm * ell' gm alpha x u) t u L (fun x _ => D0 x)) as (x & E & X). cbv beta in E.
      destruct (MVT_cor2 (fun y => ell' gm alpha y u) (fun x => - roll_margin gm alpha x u) x u ltac:(lra) (fun x _ => D1 x)) as (v & E' & V). cbv beta in E'.
      pose proof (CL v u ltac:(lra) U) as P. assert (0 < roll_margin gm alpha v u * (u - x)) by (apply Rmult_lt_0_compat; lra).
      assert (0 < ell' gm alpha x u) by lra. assert (0 < cos gm * ell' gm alpha x u) by (apply Rmult_lt_0_compat; lra).
      assert (0 < cos gm * ell' gm alpha x u * (u - t)) by (apply Rmult_lt_0_compat; lra). lra.
    - destruct (MVT_cor2 (fun y => ell gm alpha y u) (fun x => cos gm * ell' gm alpha x u) u t L (fun x _ => D0 x)) as (x & E & X). cbv beta in E.
      destruct (MVT_cor2 (fun y => ell' gm alpha y u) (fun x => - roll_margin gm alpha x u) u x ltac:(lra) (fun x _ => D1 x)) as (v & E' & V). cbv beta in E'.
      pose proof (CL v u ltac:(lra) U) as P. assert (0 < roll_margin gm alpha v u * (x - u)) by (apply Rmult_lt_0_compat; lra).
      assert (0 < - ell' gm alpha x u) by lra. assert (0 < cos gm * - ell' gm alpha x u) by (apply Rmult_lt_0_compat; lra).
      assert (0 < cos gm * - ell' gm alpha x u * (t - u)) by (apply Rmult_lt_0_compat; lra). lra. }
  assert (0 < slant rp gm / sqrt (1 - reach_sin gm alpha u * reach_sin gm alpha u) * - ell gm alpha t u) by (apply Rmult_lt_0_compat; lra). lra.
Qed.

(** Two bevel gears with equal modules and pitch cones of equal slant height, the first one placed by mesh_to at the second. *)
Record bevel_meshed (g o : igear) (sg so a : R) (target : vec) (bl bias : R) (g' : igear) (n1 n2 : Z) (gm1 gm2 : R) : Prop := {
  bm_1 : conical g n1 gm1; bm_2 : conical o n2 gm2; bm_g1 : gm1 < PI / 2; bm_g2 : gm2 < PI / 2;
  bm_target : / 10 ^ 12 <= norm (project_plane (normalize target) (axis_of o));
  bm_mesh : ig_mesh_to g o sg so a target bl bias = Ok g';
  bm_module : ip_module (ig_in g) = ip_module (ig_in o);
  bm_slant : slant (IZR n1 / 2) gm1 = slant (IZR n2 / 2) gm2;
  bm_ext1 : ip_inside (ig_in g) = false; bm_ext2 : ip_inside (ig_in o) = false;
  bm_apart : / 10 ^ 12 <= norm (vsub (base_of o) (base_of g')) }.

Section Meshed.
Variables (g o : igear) (sg so a : R) (target : vec) (bl bias : R) (g' : igear) (n1 n2 : Z) (gm1 gm2 : R).
Hypothesis BM : bevel_meshed g o sg so a target bl bias g' n1 n2 gm1 gm2.
Let T1 := k_trf (ig_core g').
Let T2 := k_trf (ig_core o).
Let p1 := 2 * PI / IZR n1.
Let p2 := 2 * PI / IZR n2.

Lemma bm_ranges : 0 < gm1 < PI / 2 /\ 0 < gm2 < PI / 2 /\ 0 < IZR n1 /\ 0 < IZR n2.
Proof.
  pose proof (co_gam _ _ _ (bm_1 _ _ _ _ _ _ _ _ _ _ _ _ _ BM)). pose proof (co_gam _ _ _ (bm_2 _ _ _ _ _ _ _ _ _ _ _ _ _ BM)).
  pose proof (bm_g1 _ _ _ _ _ _ _ _ _ _ _ _ _ BM). pose proof (bm_g2 _ _ _ _ _ _ _ _ _ _ _ _ _ BM).
  repeat split; try lra; apply IZR_lt; [apply (co_n _ _ _ (bm_1 _ _ _ _ _ _ _ _ _ _ _ _ _ BM))|apply (co_n _ _ _ (bm_2 _ _ _ _ _ _ _ _ _ _ _ _ _ BM))].
Qed.
Lemma bm_matched : matched g o gm1 gm2.
Proof.
  destruct bm_ranges as (G1 & G2 & _). unfold matched.
  destruct (conical_core _ _ _ (bm_1 _ _ _ _ _ _ _ _ _ _ _ _ _ BM) G1) as (_ & _ & _ & _ & _ & _ & ->).
  destruct (conical_core _ _ _ (bm_2 _ _ _ _ _ _ _ _ _ _ _ _ _ BM) G2) as (_ & _ & _ & _ & _ & _ & ->).
  rewrite (bm_slant _ _ _ _ _ _ _ _ _ _ _ _ _ BM), (bm_module _ _ _ _ _ _ _ _ _ _ _ _ _ BM). reflexivity.
Qed.
Lemma rotz_whole b j : rotz (b + 2 * IZR j * PI) = rotz b.
Proof. unfold rotz. rewrite cos_Zperiod, sin_Zperiod. reflexivity. Qed.

(** Where the teeth of the two gears are, seen from the pitch point. *)
Lemma mesh_phase : exists psi xs (c : Z),
  (forall v, mapp (g_orient T1) (mapp (rotz (g_angle T1 + xs * p1)) v) = mapp (g_orient T2) (mapp (rotz psi) (mapp (roty (- (gm1 + gm2))) (mapp (rotz PI) v)))) /\
  (forall v, mapp (g_orient T2) (mapp (rotz (g_angle T2 - (xs + 1 / 2 + IZR c) * p2)) v) = mapp (g_orient T2) (mapp (rotz psi) v)).
Proof.
  destruct BM as [H1 H2 A1 A2 HT HM MO SL E1 E2 AP]. destruct bm_ranges as (G1 & G2 & N1 & N2). pose proof bm_matched as MA. pose proof PI_RGT_0.
  pose proof (C48_tooth_meets_gap g o sg so a target bl bias g' n1 n2 gm1 gm2 H1 H2 HT HM MA E1 E2 A1 A2 AP) as TG. cbv zeta in TG. fold T1 T2 in TG.
  destruct (mesh_to_bevel _ _ _ _ _ _ _ _ _ _ _ _ _ H1 H2 HT HM) as (_ & CO & OR & AX & _). cbv zeta in OR, AX. fold T1 T2 in OR.
  destruct (bevel_dirs _ _ _ _ _ _ _ _ _ _ _ _ _ H1 H2 HT HM MA) as (UU & WU & _ & _ & _ & Q1 & Q2). cbv zeta in *.
  assert (TH : shaft_angle (ip_inside (ig_in g)) (ip_inside (ig_in o)) gm1 gm2 = gm1 + gm2) by (rewrite E1, E2; reflexivity).
  rewrite TH in *. rewrite E1, E2 in Q1. cbn [orb] in Q1.
  set (u := target_in_plane o (normalize target)) in *. set (P := BevelProps.pitch_point o target) in *.
  assert (O2 : orthogonal (g_orient T2)) by apply (co_orient _ _ _ H2). assert (O1 : orthogonal (g_orient T1)) by apply (co_orient _ _ _ CO).
  pose proof (pitch_r_pos _ _ _ H1) as R1. pose proof (pitch_r_pos _ _ _ H2) as R2.
  assert (PP1 : 0 < p1) by (apply Rdiv_lt_0_compat; lra). assert (PP2 : 0 < p2) by (apply Rdiv_lt_0_compat; lra).
  set (d2 := vsub P (base_of o)) in *. set (psi := angle_xy (vmat d2 (g_orient T2))).
  assert (UZ : dot u (axis_of o) = 0).
  { assert (0 < / 10 ^ 12) by (apply Rinv_0_lt_compat; lra). apply (target_in_plane_spec o n2 gm2 (normalize target) H2). lra. }
  assert (D2 : d2 = smul (pitch_r o) u) by (apply vsub_of_vadd).
  assert (U : u = dir (g_orient T2) psi).
  { assert (D0 : dot d2 (col3 (g_orient T2)) = 0) by (change (col3 (g_orient T2)) with (axis_of o); rewrite D2, dot_smul_l, UZ; ring).
    pose proof (dir_of_plane _ d2 O2 D0) as K. fold psi in K. rewrite D2 in K at 1. rewrite D2, norm_smul, (norm_unit _ UU), Rabs_right in K by lra.
    replace u with (smul (/ pitch_r o) (smul (pitch_r o) u)) by (rewrite smul_smul, Rinv_l by lra; apply smul_1).
    rewrite K, smul_smul. replace (/ pitch_r o * (pitch_r o * 1)) with 1 by (field; lra). apply smul_1. }
  set (xs := (psi + PI - g_angle T1) / p1).
  assert (XS : g_angle T1 + xs * p1 = psi + PI) by (unfold xs; field; lra).
  assert (W : dir (g_orient T1) psi = fr_w (axis_of o) u (gm1 + gm2)).
  { unfold fr_w. rewrite vadd_comm. rewrite <- (turn_u u (axis_of o) (gm1 + gm2) UU (col3_unit _ O2) UZ). rewrite OR. transitivity (mapp (rodrigues (cross u (axis_of o)) (gm1 + gm2)) (dir (g_orient T2) psi)); [apply mapp_mmul|rewrite <- U; reflexivity]. }
  destruct (TG xs) as (TG1 & _).
  assert (TA : tooth_at (MeshAngleProps.turned T1 n1 xs) n1 (vsub P (base_of g'))).
  { exists 0%Z. exists (pitch_r g). split; [exact R1|]. cbn [MeshAngleProps.turned g_angle g_orient].
    change (g_z_axis (MeshAngleProps.turned T1 n1 xs)) with (axis_of g'). rewrite Q1. fold p1. replace (g_angle T1 + xs * p1 + IZR 0 * p1) with (psi + PI) by (cbn; lra).
    rewrite dir_pi, W. apply smul_opp_opp. }
  destruct (TG1 TA) as (k & GA). fold p2 in GA. cbn [MeshAngleProps.turned g_angle g_orient] in GA.
  apply points_at_iff in GA; [|exact O2|].
  2:{ unfold off_axis. change (g_z_axis (MeshAngleProps.turned T2 n2 (- xs))) with (axis_of o). fold d2. rewrite Q2. apply smul_unit_neq; [lra|exact UU]. }
  destruct GA as (j & GA). cbn [MeshAngleProps.turned g_angle g_orient] in GA. fold d2 psi p2 in GA.
  exists psi, xs, (- k - 1)%Z. split.
  - intros v. rewrite XS, <- rotz_plus, mapp_mmul, OR. apply mesh_frame; [exact O2|reflexivity|exact U].
  - intros v. f_equal. replace (g_angle T2 - (xs + 1 / 2 + IZR (- k - 1)) * p2) with (psi + 2 * IZR j * PI); [rewrite rotz_whole; reflexivity|].
    rewrite minus_IZR, opp_IZR. cbn. lra.
Qed.


Section Phase.
Variables (psi xs : R) (c : Z).
Hypothesis PH1 : forall v, mapp (g_orient T1) (mapp (rotz (g_angle T1 + xs * p1)) v) = mapp (g_orient T2) (mapp (rotz psi) (mapp (roty (- (gm1 + gm2))) (mapp (rotz PI) v))).
Hypothesis PH2 : forall v, mapp (g_orient T2) (mapp (rotz (g_angle T2 - (xs + 1 / 2 + IZR c) * p2)) v) = mapp (g_orient T2) (mapp (rotz psi) v).
Let S := slant (IZR n2 / 2) gm2.
Let F (v : vec) : vec := mapp (g_orient T2) (mapp (rotz psi) (mapp (roty (PI / 2 - gm2)) v)).
Let kap z := ip_module (ig_in o) * ((S - z) / S).
Let sp1 := k_spiral (ig_core g').
Let sp2 := k_spiral (ig_core o).

Lemma F_dot v w : dot (F v) (F w) = dot v w.
Proof.
  unfold F. rewrite orthogonal_dot by apply (co_orient _ _ _ (bm_2 _ _ _ _ _ _ _ _ _ _ _ _ _ BM)).
  rewrite orthogonal_dot by apply rotation_rotz. rewrite orthogonal_dot by apply rotation_roty. reflexivity.
Qed.
Lemma bm_moved : ig_in g' = ig_in g /\ conical g' n1 gm1 /\ apex_of g' gm1 = apex_of o gm2.
Proof.
  destruct BM as [H1 H2 _ _ HT HM _ _ _ _ _].
  destruct (C48_apex_and_axes g o sg so a target bl bias n1 n2 gm1 gm2 H1 H2 HT) as (h & HM' & AP & _ & _ & CO & IN & _).
  rewrite HM in HM'. apply Ok_inj in HM'. subst h. auto.
Qed.

Lemma in_space_1 x z k q e w : vsub q (V 0 0 (IZR n1 / 2 / tan gm1)) = mapp (rotz e) (mapp (roty (PI / 2 - gm1)) w) ->
  in_space g' n1 x z k q = vadd (apex_of o gm2) (smul (kap z) (F (half (spin (PI / 2 - gm1) (e + (x + IZR k - xs) * p1 + z * sp1) w)))).
Proof.
  intros Q. destruct bm_moved as (IN & CO & AP). destruct bm_ranges as (G1 & _).
  rewrite (in_space_apex g' n1 gm1 x z k q CO G1), Q, AP, IN, (bm_module _ _ _ _ _ _ _ _ _ _ _ _ _ BM), (bm_slant _ _ _ _ _ _ _ _ _ _ _ _ _ BM).
  fold S T1 p1 sp1. fold (kap z). f_equal. f_equal. rewrite <- (mapp_mmul (rotz _) (rotz _)), rotz_plus.
  replace (g_angle T1 + (x + IZR k) * p1 + z * sp1 + e) with ((g_angle T1 + xs * p1) + (e + (x + IZR k - xs) * p1 + z * sp1)) by ring.
  rewrite <- rotz_plus, mapp_mmul, PH1. unfold F. f_equal. f_equal. unfold half. rewrite <- (crown_half gm1 gm2). unfold spin. rewrite roty_back. reflexivity.
Qed.
Lemma in_space_2 y z k q e w : vsub q (V 0 0 (IZR n2 / 2 / tan gm2)) = mapp (rotz e) (mapp (roty (PI / 2 - gm2)) w) ->
  in_space o n2 y z k q = vadd (apex_of o gm2) (smul (kap z) (F (spin (PI / 2 - gm2) (e + (y + IZR k + xs + 1 / 2 + IZR c) * p2 + z * sp2) w))).
Proof.
  intros Q. destruct bm_ranges as (_ & G2 & _).
  rewrite (in_space_apex o n2 gm2 y z k q (bm_2 _ _ _ _ _ _ _ _ _ _ _ _ _ BM) G2), Q.
  fold S T2 p2 sp2. fold (kap z). f_equal. f_equal. rewrite <- (mapp_mmul (rotz _) (rotz _)), rotz_plus.
  replace (g_angle T2 + (y + IZR k) * p2 + z * sp2 + e) with ((g_angle T2 - (xs + 1 / 2 + IZR c) * p2) + (e + (y + IZR k + xs + 1 / 2 + IZR c) * p2 + z * sp2)) by ring.
  rewrite <- rotz_plus, mapp_mmul, PH2. unfold F. f_equal. f_equal. unfold spin. rewrite roty_back. reflexivity.
Qed.

(** The parameters of the points in contact. *)
Definition touch_1 (up : bool) (x z : R) (k : Z) : R := ig_pia g' z - signed up ((x + IZR k - xs) * p1 + z * sp1).
Definition touch_2 (up : bool) (y z : R) (k : Z) : R := ig_pia o z - signed up ((y + IZR k + xs + 1 / 2 + IZR c) * p2 + z * sp2).

Lemma flank_1 up x z k t : in_space g' n1 x z k (flank up g' n1 gm1 z t) = vadd (apex_of o gm2) (smul (kap z) (F (half (sided up
  (spin (PI / 2 - gm1) (t - touch_1 up x z k) (foot S (pole (ip_alpha (ig_in g)) (- t * sin gm1)))))))).
Proof.
  rewrite (in_space_1 x z k _ _ _ (flank_local up g' n1 gm1 z t)). destruct bm_moved as (-> & _). rewrite (bm_slant _ _ _ _ _ _ _ _ _ _ _ _ _ BM). fold S.
  rewrite <- spin_sided. do 5 f_equal. unfold touch_1. destruct up; cbn [signed]; ring.
Qed.
Lemma flank_2 up y z k t : in_space o n2 y z k (flank up o n2 gm2 z t) = vadd (apex_of o gm2) (smul (kap z) (F (sided up
  (spin (PI / 2 - gm2) (t - touch_2 up y z k) (foot S (pole (ip_alpha (ig_in o)) (- t * sin gm2))))))).
Proof.
  rewrite (in_space_2 y z k _ _ _ (flank_local up o n2 gm2 z t)). fold S.
  rewrite <- spin_sided. do 4 f_equal. unfold touch_2. destruct up; cbn [signed]; ring.
Qed.

Lemma sin_ratio : IZR n1 = 2 * S * sin gm1 /\ IZR n2 = 2 * S * sin gm2 /\ 0 < S /\ 0 < sin gm1 /\ 0 < sin gm2.
Proof.
  destruct bm_ranges as (G1 & G2 & N1 & N2). assert (S1 : 0 < sin gm1) by (apply sin_gt_0; lra). assert (S2 : 0 < sin gm2) by (apply sin_gt_0; lra).
  assert (P : 0 < S) by (unfold S, slant; apply Rdiv_lt_0_compat; lra).
  repeat split; try assumption; [unfold S; rewrite <- (bm_slant _ _ _ _ _ _ _ _ _ _ _ _ _ BM)|unfold S]; unfold slant; field; lra.
Qed.

(** Which tooth of the other gear meets tooth [k]. *)
Definition partner (up : bool) (k : Z) : Z := if up then (- c - k - 1)%Z else (- c - k)%Z.
(** Half of the play of the teeth at the height [z], in pitches. *)
Definition half_play (z : R) : R := (PI - (ig_pia g' z * IZR n1 + ig_pia o z * IZR n2)) / (2 * PI).
Lemma touch_pair up x y z k : sp1 * IZR n1 + sp2 * IZR n2 = 0 -> y = - x - signed up (half_play z) ->
  touch_1 up x z k * IZR n1 + touch_2 up y z (partner up k) * IZR n2 = 0 /\ touch_1 up x z k * sin gm1 = - touch_2 up y z (partner up k) * sin gm2.
Proof.
  intros SP Y. destruct sin_ratio as (E1 & E2 & SS & _). destruct bm_ranges as (_ & _ & N1 & N2). pose proof PI_RGT_0.
  assert (E : touch_1 up x z k * IZR n1 + touch_2 up y z (partner up k) * IZR n2 = 0).
  { unfold touch_1, touch_2, partner, p1, p2. rewrite Y. unfold half_play. destruct up; cbn [signed]; rewrite ?minus_IZR, ?opp_IZR; cbn.
    - transitivity (z * (sp1 * IZR n1 + sp2 * IZR n2)); [field; lra|rewrite SP; ring].
    - transitivity (- z * (sp1 * IZR n1 + sp2 * IZR n2)); [field; lra|rewrite SP; ring]. }
  split; [exact E|]. rewrite E1, E2 in E. revert E. generalize (touch_1 up x z k) (touch_2 up y z (partner up k)). intros u v E.
  apply Rmult_eq_reg_l with (2 * S); [lra|lra].
Qed.

Lemma contact_at up x y z k : ip_alpha (ig_in g) = ip_alpha (ig_in o) -> sp1 * IZR n1 + sp2 * IZR n2 = 0 -> y = - x - signed up (half_play z) ->
  let t1 := touch_1 up x z k in let k2 := partner up k in let t2 := touch_2 up y z k2 in
  in_space g' n1 x z k (flank up g' n1 gm1 z t1) = in_space o n2 y z k2 (flank up o n2 gm2 z t2).
Proof.
  intros AL SP Y t1 k2 t2. destruct (touch_pair up x y z k SP Y) as (_ & E). fold t1 k2 t2 in E. rewrite flank_1, flank_2. fold t1 k2 t2.
  rewrite !Rminus_eq_0, !spin_0, half_sided, AL. do 4 f_equal. rewrite <- E. replace (- t1 * sin gm1) with (- (t1 * sin gm1)) by ring.
  pose proof (foot_half S (ip_alpha (ig_in o)) (- (t1 * sin gm1))) as K. cbv zeta in K. rewrite Ropp_involutive in K. rewrite K. reflexivity.
Qed.

(** The normal of the rack flank between the two gears. *)
Definition rack_normal (up : bool) (b : R) : vec := F (sided up (pole (ip_alpha (ig_in o)) b)).
Lemma rack_normal_unit up b : dot (rack_normal up b) (rack_normal up b) = 1.
Proof.
  unfold rack_normal. rewrite F_dot, dot_sided. unfold pole. rewrite orthogonal_dot by apply rotation_rotz. vec_simpl.
  pose proof (sc1 (ip_alpha (ig_in o))). lra.
Qed.
Lemma dot_place (N : vec) A r w : dot N (vadd A (smul r w)) = dot N A + r * dot N w.
Proof. destruct N, A, w. vec_simpl. ring. Qed.

(** Distance of the points of the flanks from that plane. *)
Lemma normal_1 up x z k t b : ip_alpha (ig_in g) = ip_alpha (ig_in o) ->
  dot (rack_normal up b) (in_space g' n1 x z k (flank up g' n1 gm1 z t)) = dot (rack_normal up b) (apex_of o gm2) -
  kap z * dot (pole (ip_alpha (ig_in o)) (- b)) (spin (PI / 2 - gm1) (t - touch_1 up x z k) (foot S (pole (ip_alpha (ig_in o)) (- t * sin gm1)))).
Proof.
  intros AL. rewrite flank_1, dot_place, AL. unfold rack_normal at 2. rewrite F_dot, half_sided, dot_sided, dot_half, half_pole.
  generalize (spin (PI / 2 - gm1) (t - touch_1 up x z k) (foot S (pole (ip_alpha (ig_in o)) (- t * sin gm1)))) (pole (ip_alpha (ig_in o)) (- b)).
  generalize (kap z) (dot (rack_normal up b) (apex_of o gm2)). clear. intros p q v w. destruct v, w. vec_simpl. ring.
Qed.
Lemma normal_2 up y z k t b : dot (rack_normal up b) (in_space o n2 y z k (flank up o n2 gm2 z t)) = dot (rack_normal up b) (apex_of o gm2) +
  kap z * dot (pole (ip_alpha (ig_in o)) b) (spin (PI / 2 - gm2) (t - touch_2 up y z k) (foot S (pole (ip_alpha (ig_in o)) (- t * sin gm2)))).
Proof. rewrite flank_2, dot_place. unfold rack_normal at 2. rewrite F_dot, dot_sided. reflexivity. Qed.

Lemma rack_speed_even rp gm alpha b : rack_speed rp gm alpha (- b) = rack_speed rp gm alpha b.
Proof.
  assert (E : dot RIGHT (pole alpha (- b)) = - dot RIGHT (pole alpha b)) by (unfold pole; vec_simpl; rewrite cos_neg, sin_neg; ring).
  unfold rack_speed. rewrite cos_neg, E, Rmult_opp_opp. reflexivity.
Qed.
Lemma law_at up x y z k : ip_alpha (ig_in g) = ip_alpha (ig_in o) -> 0 < ip_alpha (ig_in o) < PI / 2 ->
  sp1 * IZR n1 + sp2 * IZR n2 = 0 -> y = - x - signed up (half_play z) ->
  let t1 := touch_1 up x z k in let k2 := partner up k in let t2 := touch_2 up y z k2 in
  let q1 := flank up g' n1 gm1 z t1 in let q2 := flank up o n2 gm2 z t2 in let N := rack_normal up (t1 * sin gm1) in
  dot N (vsub (in_space g' n1 x z k q1) (apex_of o gm2)) = 0 /\
  is_derive (fun t => dot N (in_space g' n1 x z k (flank up g' n1 gm1 z t))) t1 0 /\
  is_derive (fun t => dot N (in_space o n2 y z k2 (flank up o n2 gm2 z t))) t2 0 /\
  exists v, is_derive (fun d => dot N (in_space g' n1 (x + d) z k q1)) 0 v /\ is_derive (fun d => dot N (in_space o n2 (y - d) z k2 q2)) 0 v.
Proof.
  intros AL A0 SP Y t1 k2 t2 q1 q2 N. destruct (touch_pair up x y z k SP Y) as (_ & E). fold t1 k2 t2 in E.
  destruct sin_ratio as (E1 & E2 & S0 & S1 & S2). destruct bm_ranges as (G1 & G2 & N1 & N2).
  pose proof (bm_slant _ _ _ _ _ _ _ _ _ _ _ _ _ BM) as SL. fold S in SL. set (al := ip_alpha (ig_in o)) in *.
  assert (B1 : bevel (IZR n1 / 2) gm1 al) by (split; [lra|exact G1|exact A0]). assert (B2 : bevel (IZR n2 / 2) gm2 al) by (split; [lra|exact G2|exact A0]).
  destruct (lag_tangent _ _ _ t1 B1) as (L1 & D1). destruct (lag_tangent _ _ _ t2 B2) as (L2 & D2).
  assert (X1 : forall t, dot N (in_space g' n1 x z k (flank up g' n1 gm1 z t)) = dot N (apex_of o gm2) + - kap z * lag (IZR n1 / 2) gm1 al t1 t).
  { intros t. unfold N. rewrite normal_1 by exact AL. fold al t1. unfold lag. rewrite SL. replace (- (t1 * sin gm1)) with (- t1 * sin gm1) by ring. ring. }
  assert (X2 : forall t, dot N (in_space o n2 y z k2 (flank up o n2 gm2 z t)) = dot N (apex_of o gm2) + kap z * lag (IZR n2 / 2) gm2 al t2 t).
  { intros t. unfold N. rewrite normal_2. fold al t2. unfold lag. fold S. rewrite E. reflexivity. }
  split.
  { transitivity (dot N (in_space g' n1 x z k q1) - dot N (apex_of o gm2)).
    - generalize (in_space g' n1 x z k q1) (apex_of o gm2) N. clear. intros u v w. destruct u, v, w. vec_simpl. ring.
    - unfold q1. rewrite X1, L1. ring. }
  split. { apply (is_derive_ext _ _ _ _ (fun t => eq_sym (X1 t))). refine (is_derive_val _ _ _ _ (is_derive_shift _ _ _ _ _ D1) _). ring. }
  split. { apply (is_derive_ext _ _ _ _ (fun t => eq_sym (X2 t))). refine (is_derive_val _ _ _ _ (is_derive_shift _ _ _ _ _ D2) _). ring. }
  exists (kap z * (signed up p1 * sin gm1 * rack_speed (IZR n1 / 2) gm1 al (t1 * sin gm1))). split.
  - apply is_derive_ext with (fun d => dot N (apex_of o gm2) + - kap z * dot (pole al (- (t1 * sin gm1)))
      (spin (PI / 2 - gm1) ((d - 0) * signed up p1) (foot (slant (IZR n1 / 2) gm1) (pole al (- (t1 * sin gm1)))))).
    + intros d. unfold N, q1. rewrite normal_1 by exact AL. fold al. rewrite SL.
      replace (t1 - touch_1 up (x + d) z k) with ((d - 0) * signed up p1) by (unfold t1, touch_1; destruct up; cbn [signed]; ring).
      replace (- t1 * sin gm1) with (- (t1 * sin gm1)) by ring. eqR. ring.
    + refine (is_derive_val _ _ _ _ (is_derive_shift _ _ _ _ _ (foot_speed _ _ _ _ _ _)) _). rewrite rack_speed_even. ring.
  - apply is_derive_ext with (fun d => dot N (apex_of o gm2) + kap z * dot (pole al (- t2 * sin gm2))
      (spin (PI / 2 - gm2) ((d - 0) * signed up (- p2)) (foot (slant (IZR n2 / 2) gm2) (pole al (- t2 * sin gm2))))).
    + intros d. unfold N, q2. rewrite normal_2. fold al. fold S. rewrite E.
      replace (t2 - touch_2 up (y - d) z k2) with ((d - 0) * signed up (- p2)) by (unfold t2, touch_2; destruct up; cbn [signed]; ring). reflexivity.
    + refine (is_derive_val _ _ _ _ (is_derive_shift _ _ _ _ _ (foot_speed _ _ _ _ _ _)) _). rewrite <- E. unfold rack_speed. rewrite SL. fold S.
      assert (Q : p1 * sin gm1 = p2 * sin gm2).
      { unfold p1, p2. rewrite E1, E2. field. repeat split; lra. }
      generalize (S / sqrt (1 - dot RIGHT (pole al (t1 * sin gm1)) * dot RIGHT (pole al (t1 * sin gm1))) * (cos al * cos (t1 * sin gm1))). intros r.
      destruct up; cbn [signed].
      * transitivity (- (kap z * r * (p2 * sin gm2))); [ring|rewrite <- Q; ring].
      * transitivity (kap z * r * (p2 * sin gm2)); [ring|rewrite <- Q; ring].
Qed.

Lemma sides_at up x y z k lo1 hi1 lo2 hi2 : ip_alpha (ig_in g) = ip_alpha (ig_in o) -> 0 < ip_alpha (ig_in o) < PI / 2 ->
  sp1 * IZR n1 + sp2 * IZR n2 = 0 -> y = - x - signed up (half_play z) -> z < S ->
  clears gm1 (ip_alpha (ig_in o)) lo1 hi1 -> clears gm2 (ip_alpha (ig_in o)) lo2 hi2 ->
  let t1 := touch_1 up x z k in let k2 := partner up k in let t2 := touch_2 up y z k2 in let N := rack_normal up (t1 * sin gm1) in
  lo1 <= t1 <= hi1 -> lo2 <= t2 <= hi2 ->
  (forall u, lo1 <= u <= hi1 -> u <> t1 -> 0 < dot N (vsub (in_space g' n1 x z k (flank up g' n1 gm1 z u)) (apex_of o gm2))) /\
  (forall u, lo2 <= u <= hi2 -> u <> t2 -> dot N (vsub (in_space o n2 y z k2 (flank up o n2 gm2 z u)) (apex_of o gm2)) < 0).
Proof.
  intros AL A0 SP Y ZS C1 C2 t1 k2 t2 N T1' T2'. destruct (touch_pair up x y z k SP Y) as (_ & E). fold t1 k2 t2 in E.
  destruct sin_ratio as (E1 & E2 & S0 & S1 & S2). destruct bm_ranges as (G1 & G2 & N1 & N2).
  pose proof (bm_slant _ _ _ _ _ _ _ _ _ _ _ _ _ BM) as SL. fold S in SL. set (al := ip_alpha (ig_in o)) in *.
  assert (B1 : bevel (IZR n1 / 2) gm1 al) by (split; [lra|exact G1|exact A0]). assert (B2 : bevel (IZR n2 / 2) gm2 al) by (split; [lra|exact G2|exact A0]).
  assert (KP : 0 < kap z).
  { unfold kap. apply Rmult_lt_0_compat; [apply (co_module _ _ _ (bm_2 _ _ _ _ _ _ _ _ _ _ _ _ _ BM))|apply Rdiv_lt_0_compat; lra]. }
  assert (DV : forall q, dot N (vsub q (apex_of o gm2)) = dot N q - dot N (apex_of o gm2)).
  { generalize (apex_of o gm2) N. clear. intros v w q. destruct q, v, w. vec_simpl. ring. }
  split; intros u U NE; rewrite DV; unfold N.
  - rewrite normal_1 by exact AL. fold al t1. replace (- (t1 * sin gm1)) with (- t1 * sin gm1) by ring. rewrite <- SL.
    fold (lag (IZR n1 / 2) gm1 al t1 u). pose proof (lag_side _ _ _ _ _ t1 u B1 C1 T1' U (not_eq_sym NE)) as L.
    assert (0 < kap z * - lag (IZR n1 / 2) gm1 al t1 u) by (apply Rmult_lt_0_compat; lra). lra.
  - rewrite normal_2. fold al t2. rewrite E. unfold S. fold (lag (IZR n2 / 2) gm2 al t2 u). pose proof (lag_side _ _ _ _ _ t2 u B2 C2 T2' U (not_eq_sym NE)) as L.
    assert (0 < kap z * - lag (IZR n2 / 2) gm2 al t2 u) by (apply Rmult_lt_0_compat; lra). lra.
Qed.
End Phase.
End Meshed.

(** ** Theorems *)
(** The same pressure angle and opposite helix angles. *)
Record bevel_mates (g o : igear) : Prop := {
  bp_alpha : ip_alpha (ig_in g) = ip_alpha (ig_in o); bp_range : 0 < ip_alpha (ig_in o) < PI / 2;
  bp_helix : tan (ip_helix (ig_in g)) + tan (ip_helix (ig_in o)) = 0 }.
(** The parameter of the point of tooth [k] that touches the other gear, when the gear has turned by [x] pitches since tooth 0 was on the pitch line. *)
Definition touching (up : bool) (g : igear) (n : Z) (x z : R) (k : Z) : R :=
  ig_pia g z - signed up ((x + IZR k) * (2 * PI / IZR n) + z * k_spiral (ig_core g)).
(** The play, in pitches, to one side. *)
Definition one_sided_play (g o : igear) (n1 n2 : Z) (z : R) : R := (PI - (ig_pia g z * IZR n1 + ig_pia o z * IZR n2)) / (2 * PI).
(** The tooth of the other gear that touches tooth [k]. *)
Definition mate (up : bool) (c k : Z) : Z := if up then (c - k - 1)%Z else (c - k)%Z.

Lemma spiral_sum g o sg so a target bl bias g' n1 n2 gm1 gm2 : bevel_meshed g o sg so a target bl bias g' n1 n2 gm1 gm2 -> bevel_mates g o ->
  k_spiral (ig_core g') * IZR n1 + k_spiral (ig_core o) * IZR n2 = 0.
Proof.
  intros BM [_ _ H]. destruct (bm_moved _ _ _ _ _ _ _ _ _ _ _ _ _ BM) as (IN & CO & _). pose proof (bm_2 _ _ _ _ _ _ _ _ _ _ _ _ _ BM) as CO2.
  destruct (bm_ranges _ _ _ _ _ _ _ _ _ _ _ _ _ BM) as (_ & _ & N1 & N2).
  rewrite (co_core _ _ _ CO), (co_core _ _ _ CO2). cbn [with_trf calc_params k_spiral]. rewrite IN, (co_teeth _ _ _ CO2).
  rewrite <- IN, (co_teeth _ _ _ CO), IN. transitivity (2 * (tan (ip_helix (ig_in g)) + tan (ip_helix (ig_in o)))); [field; lra|rewrite H; ring].
Qed.

Lemma contact_core g o sg so a target bl bias g' n1 n2 gm1 gm2 : bevel_meshed g o sg so a target bl bias g' n1 n2 gm1 gm2 -> bevel_mates g o ->
  exists xs (c : Z), forall up x y z k, y = - x - signed up (one_sided_play g' o n1 n2 z) ->
    let t1 := touching up g' n1 (x - xs) z k in let t2 := - (t1 * IZR n1 / IZR n2) in let k2 := mate up c k in
    let q1 := flank up g' n1 gm1 z t1 in let q2 := flank up o n2 gm2 z t2 in
    in_space g' n1 x z k q1 = in_space o n2 y z k2 q2 /\
    exists N, dot N N = 1 /\ dot N (vsub (in_space g' n1 x z k q1) (apex_of o gm2)) = 0 /\
      is_derive (fun t => dot N (in_space g' n1 x z k (flank up g' n1 gm1 z t))) t1 0 /\
      is_derive (fun t => dot N (in_space o n2 y z k2 (flank up o n2 gm2 z t))) t2 0 /\
      (exists v, is_derive (fun d => dot N (in_space g' n1 (x + d) z k q1)) 0 v /\ is_derive (fun d => dot N (in_space o n2 (y - d) z k2 q2)) 0 v) /\
      (forall lo1 hi1 lo2 hi2, clears gm1 (ip_alpha (ig_in o)) lo1 hi1 -> clears gm2 (ip_alpha (ig_in o)) lo2 hi2 ->
         lo1 <= t1 <= hi1 -> lo2 <= t2 <= hi2 -> z < slant (IZR n2 / 2) gm2 ->
         (forall u, lo1 <= u <= hi1 -> u <> t1 -> 0 < dot N (vsub (in_space g' n1 x z k (flank up g' n1 gm1 z u)) (apex_of o gm2))) /\
         (forall u, lo2 <= u <= hi2 -> u <> t2 -> dot N (vsub (in_space o n2 y z k2 (flank up o n2 gm2 z u)) (apex_of o gm2)) < 0)).
Proof.
  intros BM MT. pose proof (spiral_sum _ _ _ _ _ _ _ _ _ _ _ _ _ BM MT) as SP. destruct MT as [AL A0 _].
  destruct (mesh_phase _ _ _ _ _ _ _ _ _ _ _ _ _ BM) as (psi & xs & c & PH1 & PH2). exists xs, (- c)%Z. intros up x y z k Y.
  destruct (bm_ranges _ _ _ _ _ _ _ _ _ _ _ _ _ BM) as (_ & _ & N1 & N2).
  pose proof (touch_pair _ _ _ _ _ _ _ _ _ _ _ _ _ BM xs c up x y z k SP Y) as (TP & _).
  pose proof (contact_at _ _ _ _ _ _ _ _ _ _ _ _ _ BM psi xs c PH1 PH2 up x y z k AL SP Y) as CT.
  pose proof (law_at _ _ _ _ _ _ _ _ _ _ _ _ _ BM psi xs c PH1 PH2 up x y z k AL A0 SP Y) as LW.
  pose proof (fun lo1 hi1 lo2 hi2 => sides_at _ _ _ _ _ _ _ _ _ _ _ _ _ BM psi xs c PH1 PH2 up x y z k lo1 hi1 lo2 hi2 AL A0 SP Y) as SD.
  pose proof (rack_normal_unit _ _ _ _ _ _ _ _ _ _ _ _ _ BM psi up) as UN.
  cbv zeta in *. set (T := touch_1 g' n1 xs up x z k) in *. set (V := touch_2 o n2 xs c up y z (partner c up k)) in *.
  assert (ET : touching up g' n1 (x - xs) z k = T) by (unfold T, touching, touch_1; do 4 f_equal; ring). rewrite ET.
  assert (EV : - (T * IZR n1 / IZR n2) = V) by (apply Rmult_eq_reg_r with (IZR n2); [|lra]; replace (- (T * IZR n1 / IZR n2) * IZR n2) with (- (T * IZR n1)) by (field; lra); lra).
  rewrite EV. change (mate up (- c) k) with (partner c up k). split; [exact CT|]. destruct LW as (L1 & L2 & L3 & L4).
  exists (rack_normal o gm2 psi up (T * sin gm1)). split; [apply UN|]. split; [exact L1|]. split; [exact L2|]. split; [exact L3|]. split; [exact L4|].
  intros lo1 hi1 lo2 hi2 C1 C2 R1 R2 ZS. exact (SD lo1 hi1 lo2 hi2 ZS C1 C2 R1 R2).
Qed.

(** C113: the flanks touch: at every turn and every height the point of tooth [k] and the point of its mate coincide, the sections there are tangent,
    and the two points move equally fast across the flanks when the gears turn at the ratio of the tooth numbers. *)
Theorem C113_contact g o sg so a target bl bias g' n1 n2 gm1 gm2 : bevel_meshed g o sg so a target bl bias g' n1 n2 gm1 gm2 -> bevel_mates g o ->
  exists xs (c : Z), forall up x y z k, y = - x - signed up (one_sided_play g' o n1 n2 z) ->
    let t1 := touching up g' n1 (x - xs) z k in let t2 := - (t1 * IZR n1 / IZR n2) in let k2 := mate up c k in
    let q1 := flank up g' n1 gm1 z t1 in let q2 := flank up o n2 gm2 z t2 in
    in_space g' n1 x z k q1 = in_space o n2 y z k2 q2 /\
    exists N, dot N N = 1 /\ dot N (vsub (in_space g' n1 x z k q1) (apex_of o gm2)) = 0 /\
      is_derive (fun t => dot N (in_space g' n1 x z k (flank up g' n1 gm1 z t))) t1 0 /\
      is_derive (fun t => dot N (in_space o n2 y z k2 (flank up o n2 gm2 z t))) t2 0 /\
      exists v, is_derive (fun d => dot N (in_space g' n1 (x + d) z k q1)) 0 v /\ is_derive (fun d => dot N (in_space o n2 (y - d) z k2 q2)) 0 v.
Proof.
  intros BM MT. destruct (contact_core _ _ _ _ _ _ _ _ _ _ _ _ _ BM MT) as (xs & c & K). exists xs, c. intros up x y z k Y.
  destruct (K up x y z k Y) as (E & N & U & A & B & C & D & _). split; [exact E|]. exists N. tauto.
Qed.

(** C113: nothing but that point is common to the two flanks: they lie on the two sides of a plane. *)
Theorem C113_apart g o sg so a target bl bias g' n1 n2 gm1 gm2 lo1 hi1 lo2 hi2 :
  bevel_meshed g o sg so a target bl bias g' n1 n2 gm1 gm2 -> bevel_mates g o ->
  clears gm1 (ip_alpha (ig_in o)) lo1 hi1 -> clears gm2 (ip_alpha (ig_in o)) lo2 hi2 ->
  exists xs (c : Z), forall up x y z k, y = - x - signed up (one_sided_play g' o n1 n2 z) -> z < slant (IZR n2 / 2) gm2 ->
    let t1 := touching up g' n1 (x - xs) z k in let t2 := - (t1 * IZR n1 / IZR n2) in let k2 := mate up c k in
    lo1 <= t1 <= hi1 -> lo2 <= t2 <= hi2 ->
    in_space g' n1 x z k (flank up g' n1 gm1 z t1) = in_space o n2 y z k2 (flank up o n2 gm2 z t2) /\
    (forall u1 u2, lo1 <= u1 <= hi1 -> lo2 <= u2 <= hi2 ->
       in_space g' n1 x z k (flank up g' n1 gm1 z u1) = in_space o n2 y z k2 (flank up o n2 gm2 z u2) -> u1 = t1 /\ u2 = t2) /\
    exists N, (forall u, lo1 <= u <= hi1 -> 0 <= dot N (vsub (in_space g' n1 x z k (flank up g' n1 gm1 z u)) (apex_of o gm2))) /\
      (forall u, lo2 <= u <= hi2 -> dot N (vsub (in_space o n2 y z k2 (flank up o n2 gm2 z u)) (apex_of o gm2)) <= 0) /\ dot N N = 1.
Proof.
  intros BM MT C1 C2. destruct (contact_core _ _ _ _ _ _ _ _ _ _ _ _ _ BM MT) as (xs & c & K). exists xs, c. intros up x y z k Y ZS t1 t2 k2 R1 R2.
  destruct (K up x y z k Y) as (E & N & U & A & _ & _ & _ & D). cbv zeta in *. fold t1 t2 k2 in E, A, D. fold t2 in E, D. split; [exact E|].
  destruct (D lo1 hi1 lo2 hi2 C1 C2 R1 R2 ZS) as (D1 & D2).
  assert (W1 : forall u, lo1 <= u <= hi1 -> 0 <= dot N (vsub (in_space g' n1 x z k (flank up g' n1 gm1 z u)) (apex_of o gm2))).
  { intros u Hu. destruct (Req_dec u t1) as [->|NE]; [rewrite A; lra|left; apply D1; assumption]. }
  assert (W2 : forall u, lo2 <= u <= hi2 -> dot N (vsub (in_space o n2 y z k2 (flank up o n2 gm2 z u)) (apex_of o gm2)) <= 0).
  { intros u Hu. destruct (Req_dec u t2) as [->|NE]; [rewrite <- E, A; lra|left; apply D2; assumption]. }
  split; [|exists N; auto].
  intros u1 u2 H1 H2 EQ. pose proof (W1 u1 H1) as P1. pose proof (W2 u2 H2) as P2. split.
  - destruct (Req_dec u1 t1) as [->|NE]; [reflexivity|]. pose proof (D1 u1 H1 NE). rewrite EQ in *. lra.
  - destruct (Req_dec u2 t2) as [->|NE]; [reflexivity|]. pose proof (D2 u2 H2 NE). rewrite <- EQ in *. lra.
Qed.

(** A multiple of the pitch can be found in every interval of that length. *)
Lemma some_tooth (t p lo : R) : 0 < p -> exists k : Z, lo <= t - IZR k * p <= lo + p.
Proof.
  intros P. destruct (archimed ((t - lo) / p - 1)) as (A & B). exists (up ((t - lo) / p - 1)).
  assert (E : t - lo = (t - lo) / p * p) by (field; lra). set (k := IZR (up ((t - lo) / p - 1))) in *. set (r := (t - lo) / p) in *.
  assert (0 <= (k - (r - 1)) * p) by (apply Rmult_le_pos; lra). assert (0 <= (r - k) * p) by (apply Rmult_le_pos; lra). lra.
Qed.
Lemma some_tooth_either up (t p lo : R) : 0 < p -> exists k : Z, lo <= t - signed up (IZR k * p) <= lo + p.
Proof.
  intros P. destruct (some_tooth t p lo P) as (k & K). destruct up; cbn [signed]; [exists (- k)%Z; rewrite opp_IZR; lra|exists k; exact K].
Qed.

(** C113: the contact is not interrupted, where the usable parts of the flanks are long enough: some pair of teeth touches at every turn. *)
Theorem C113_never_interrupted g o sg so a target bl bias g' n1 n2 gm1 gm2 lo1 hi1 lo2 hi2 :
  bevel_meshed g o sg so a target bl bias g' n1 n2 gm1 gm2 -> bevel_mates g o ->
  Rmax lo1 (- (hi2 * IZR n2 / IZR n1)) + 2 * PI / IZR n1 <= Rmin hi1 (- (lo2 * IZR n2 / IZR n1)) ->
  forall up x y z, y = - x - signed up (one_sided_play g' o n1 n2 z) ->
  exists k1 k2 t1 t2, lo1 <= t1 <= hi1 /\ lo2 <= t2 <= hi2 /\
    in_space g' n1 x z k1 (flank up g' n1 gm1 z t1) = in_space o n2 y z k2 (flank up o n2 gm2 z t2).
Proof.
  intros BM MT LEN up x y z Y. destruct (contact_core _ _ _ _ _ _ _ _ _ _ _ _ _ BM MT) as (xs & c & K).
  destruct (bm_ranges _ _ _ _ _ _ _ _ _ _ _ _ _ BM) as (_ & _ & N1 & N2). pose proof PI_RGT_0.
  set (p := 2 * PI / IZR n1) in *. assert (P : 0 < p) by (apply Rdiv_lt_0_compat; lra).
  set (lo := Rmax lo1 (- (hi2 * IZR n2 / IZR n1))) in *.
  assert (L1 : lo1 <= lo /\ - (hi2 * IZR n2 / IZR n1) <= lo) by (split; [apply Rmax_l|apply Rmax_r]).
  pose proof (Rmin_l hi1 (- (lo2 * IZR n2 / IZR n1))) as M1. pose proof (Rmin_r hi1 (- (lo2 * IZR n2 / IZR n1))) as M2.
  destruct (some_tooth_either up (touching up g' n1 (x - xs) z 0) p lo P) as (k & KK).
  assert (E : touching up g' n1 (x - xs) z 0 - signed up (IZR k * p) = touching up g' n1 (x - xs) z k).
  { unfold touching. fold p. destruct up; cbn [signed]; ring. }
  rewrite E in KK. destruct (K up x y z k Y) as (EQ & _). exists k, (mate up c k), (touching up g' n1 (x - xs) z k), (- (touching up g' n1 (x - xs) z k * IZR n1 / IZR n2)).
  split; [lra|]. split; [|exact EQ]. set (t := touching up g' n1 (x - xs) z k) in *.
  assert (Q1 : - (hi2 * IZR n2 / IZR n1) <= t) by lra. assert (Q2 : t <= - (lo2 * IZR n2 / IZR n1)) by lra.
  assert (C : forall q, q * IZR n2 / IZR n1 * IZR n1 = q * IZR n2) by (intros; field; lra).
  apply (Rmult_le_compat_r (IZR n1)) in Q1; [|lra]. apply (Rmult_le_compat_r (IZR n1)) in Q2; [|lra].
  rewrite Ropp_mult_distr_l_reverse, C in Q1, Q2.
  split; apply Rmult_le_reg_r with (IZR n2); try lra; replace (- (t * IZR n1 / IZR n2) * IZR n2) with (- (t * IZR n1)) by (field; lra); lra.
Qed.

(** C113: the play of the pair comes from the backlash and the profile shift given to the constructor only. *)
Theorem C113_play g o sg so a target bl bias g' n1 n2 gm1 gm2 z : bevel_meshed g o sg so a target bl bias g' n1 n2 gm1 gm2 -> bevel_mates g o ->
  ip_crown (ig_in g) = 0 -> ip_crown (ig_in o) = 0 ->
  one_sided_play g' o n1 n2 z * PI = ip_backlash (ig_in g) + ip_backlash (ig_in o) - (ip_shift (ig_in g) + ip_shift (ig_in o)) * tan (ip_alpha (ig_in o)).
Proof.
  intros BM [AL _ _] C1 C2. destruct (bm_moved _ _ _ _ _ _ _ _ _ _ _ _ _ BM) as (IN & CO & _). pose proof (bm_2 _ _ _ _ _ _ _ _ _ _ _ _ _ BM) as CO2.
  destruct (bm_ranges _ _ _ _ _ _ _ _ _ _ _ _ _ BM) as (_ & _ & N1 & N2). pose proof PI_RGT_0.
  unfold one_sided_play, ig_pia, crowning. rewrite (co_core _ _ _ CO), (co_core _ _ _ CO2). cbn [with_trf calc_params k_rp k_tooth_angle].
  rewrite (co_teeth _ _ _ CO2), (co_teeth _ _ _ CO), IN, C1, C2, AL. generalize (z * 2 / ip_height (ig_in g) - 1) (z * 2 / ip_height (ig_in o) - 1). intros. field. lra.
Qed.

Lemma moved_bevel g o sg so a target bl bias g' n1 n2 gm1 gm2 : bevel_meshed g o sg so a target bl bias g' n1 n2 gm1 gm2 ->
  bevel_gear g n1 gm1 -> bevel_gear o n2 gm2 -> bevel_gear g' n1 gm1.
Proof.
  intros BM BG BO. destruct (bm_moved _ _ _ _ _ _ _ _ _ _ _ _ _ BM) as (IN & CO & _). destruct BM as [H1 H2 _ _ HT HM _ _ _ _ _].
  destruct (C48_apex_and_axes g o sg so a target bl bias n1 n2 gm1 gm2 H1 H2 HT) as (h & HM' & _ & _ & _ & _ & _ & RO).
  rewrite HM in HM'. apply Ok_inj in HM'. subst h. pose proof (RO (bg_orient _ _ _ BO)) as ROT. destruct CO, BG. split; try assumption; try (rewrite IN; assumption).
Qed.

(** C113: the same of the profiles that the library computes: at every turn a point of the flank of a tooth of one gear is a point of the flank of a tooth of the other. *)
Theorem C113_profiles sv1 ts1 sv2 ts2 fs g o sg so a target bl bias g' n1 n2 gm1 gm2 z lo1 hi1 td1 ta1 lo2 hi2 td2 ta2 :
  bevel_meshed g o sg so a target bl bias g' n1 n2 gm1 gm2 -> bevel_mates g o -> bevel_gear g n1 gm1 -> bevel_gear o n2 gm2 ->
  bevel_at g' n1 gm1 z lo1 hi1 td1 ta1 -> bevel_searched sv1 ts1 g' n1 gm1 z lo1 hi1 ->
  bevel_at o n2 gm2 z lo2 hi2 td2 ta2 -> bevel_searched sv2 ts2 o n2 gm2 z lo2 hi2 ->
  Rmax td1 (- (ta2 * IZR n2 / IZR n1)) + 2 * PI / IZR n1 <= Rmin ta1 (- (td2 * IZR n2 / IZR n1)) ->
  exists p1 p2, ig_profile sv1 fs ts1 g' z = Ok p1 /\ ig_profile sv2 fs ts2 o z = Ok p2 /\
    forall up x y, y = - x - signed up (one_sided_play g' o n1 n2 z) -> exists k1 k2 s1 s2, 0 <= s1 <= 1 /\ 0 <= s2 <= 1 /\
      let side (v : vec) := if up then flip v else v in
      in_space g' n1 x z k1 (side (n_point (pr_tooth p1) s1)) = in_space o n2 y z k2 (side (n_point (pr_tooth p2) s2)).
Proof.
  intros BM MT BG BO BA1 SE1 BA2 SE2 LEN. pose proof (moved_bevel _ _ _ _ _ _ _ _ _ _ _ _ _ BM BG BO) as BG'.
  destruct (C111_gear sv1 fs ts1 g' n1 gm1 z lo1 hi1 td1 ta1 BG' BA1 SE1) as (q1 & V1 & E1 & _ & _ & _ & _ & PS1 & _ & _ & _ & ON1).
  destruct (C111_gear sv2 fs ts2 o n2 gm2 z lo2 hi2 td2 ta2 BO BA2 SE2) as (q2 & V2 & E2 & _ & _ & _ & _ & PS2 & _ & _ & _ & ON2).
  exists q1, q2. split; [exact E1|]. split; [exact E2|]. intros up x y Y.
  destruct (C113_never_interrupted _ _ _ _ _ _ _ _ _ _ _ _ _ td1 ta1 td2 ta2 BM MT LEN up x y z Y) as (k1 & k2 & t1 & t2 & R1 & R2 & EQ).
  destruct (ON1 t1 R1) as (s1 & S1 & <-). destruct (ON2 t2 R2) as (s2 & S2 & <-). exists k1, k2, s1, s2. split; [exact S1|]. split; [exact S2|].
  cbv zeta. rewrite (PS1 s1 S1), (PS2 s2 S2). exact EQ.
Qed.

(** ** Two gears with 24 teeth on cones of 90 degrees *)
Definition ex2_ha : R := slant 12 (PI / 4) * (cone_angle_at (PI / 4) (PI / 6) ex_turn - PI / 4).
Definition ex2_hd : R := slant 12 (PI / 4) * (PI / 4 - cone_angle_at (PI / 4) (PI / 6) (- ex_turn)).

Lemma atan_low r : 0 < r -> r / (1 + r * r) < atan r.
Proof.
  intros R0. destruct (MVT_cor2 atan (fun x => / (1 + x ^ 2)) 0 r R0 (fun c _ => derivable_pt_lim_atan c)) as (c & E & C). rewrite atan_0, !Rminus_0_r in E. rewrite E.
  unfold Rdiv. rewrite Rmult_comm. apply Rmult_lt_compat_r; [exact R0|]. replace (c ^ 2) with (c * c) by ring. assert (0 <= c * c) by (apply Rmult_le_pos; lra).
  assert (c * c < r * r) by (apply Rmult_le_0_lt_compat; lra). apply Rinv_lt_contravar; [apply Rmult_lt_0_compat; lra|lra].
Qed.
Lemma sin_cubic x : 0 < x < 1 -> x - x * x * x / 6 <= sin x /\ 1 - x * x / 2 <= cos x.
Proof.
  intros X. pose proof PI_3. destruct (pre_sin_bound x 0 ltac:(lra) ltac:(lra)) as (A & _). destruct (pre_cos_bound x 0 ltac:(lra) ltac:(lra)) as (B & _).
  unfold sin_approx, sin_term, cos_approx, cos_term in A, B. cbn in A, B. split; [eapply Rle_trans; [|exact A]|eapply Rle_trans; [|exact B]]; right; field.
Qed.

Lemma ex2_bevel : bevel_tooth 12 (PI / 4) (PI / 6) (PI / 48) ex2_ha ex2_hd (PI / 12) (- ex_turn) 1 (- ex_turn) ex_turn.
Proof.
  destruct ex_bevel as (B0 & _). destruct ex_bevel_numbers as (w & s & x & W & S & CX & X & SG & CG & EX & WA & WD). pose proof PI_3. pose proof PI_4.
  destruct B0 as [_ BR _ RT HH TP T1 T2 AR AT _ _].
  assert (SL : slant 12 (PI / 4) = 2 * slant 6 (PI / 4)) by (unfold slant; field; rewrite SG; lra).
  assert (SP : 0 < slant 6 (PI / 4)) by (unfold slant; rewrite SG; apply Rdiv_lt_0_compat; lra).
  assert (HA : ex2_ha = 2 * ex_ha) by (unfold ex2_ha, ex_ha; rewrite SL; ring). assert (HD : ex2_hd = 2 * ex_hd) by (unfold ex2_hd, ex_hd; rewrite SL; ring).
  assert (RA : ex2_ha / slant 12 (PI / 4) = ex_ha / slant 6 (PI / 4)) by (rewrite HA, SL; field; lra).
  assert (RD : ex2_hd / slant 12 (PI / 4) = ex_hd / slant 6 (PI / 4)) by (rewrite HD, SL; field; lra).
  assert (S3 : 17 / 10 < sqrt 3) by (apply sqrt_bound; lra). pose proof (sqrt_sqrt 3 ltac:(lra)) as Q3.
  assert (C6 : cos (PI / 6) = sqrt 3 / 2) by apply cos_PI6. assert (S6 : sin (PI / 6) = 1 / 2) by apply sin_PI6.
  assert (T0 : 0 < ex_turn <= 1 / 6) by (unfold ex_turn; lra).
  assert (XS : x = ex_turn * s) by (rewrite <- EX, SG; reflexivity).
  assert (WE : w = sqrt 3 / 2 * sin x) by (rewrite <- WA; unfold reach_sin; rewrite C6, EX; reflexivity).
  destruct (sin_cubic x ltac:(lra)) as (SX & CX2). assert (X2 : 0 < x * x < 1 / 64).
  { split; [apply Rmult_lt_0_compat; lra|]. assert (x * x < 1 / 8 * (1 / 8)) by (apply Rmult_le_0_lt_compat; lra). lra. }
  assert (SX2 : 99 / 100 * x < sin x). { assert (0 < x * (1 / 64 - x * x)) by (apply Rmult_lt_0_compat; lra). lra. }
  set (y := w * (sqrt 3 / 2 * cos x)).
  assert (YB : 73 / 100 * x < y).
  { unfold y. rewrite WE. replace (sqrt 3 / 2 * sin x * (sqrt 3 / 2 * cos x)) with (sqrt 3 * sqrt 3 / 4 * (sin x * cos x)) by field. rewrite Q3.
    assert (99 / 100 * x * (99 / 100) < sin x * cos x) by (apply Rmult_le_0_lt_compat; lra). lra. }
  assert (WW : 0 < w * w < 1 / 64).
  { split; [apply Rmult_lt_0_compat; lra|]. assert (w * w < 1 / 8 * (1 / 8)) by (apply Rmult_le_0_lt_compat; lra). lra. }
  assert (KEY : forall d, 0 < d -> d <= s * (17 / 16) -> PI / 48 < atan (y / d)).
  { intros d D0 D. set (r0 := 68 / 100 * ex_turn). assert (R0 : 0 < r0 < 1 / 8) by (unfold r0; lra).
    assert (L : r0 < y / d).
    { apply Rmult_lt_reg_r with d; [lra|]. replace (y / d * d) with y by (field; lra).
      assert (r0 * d <= r0 * (s * (17 / 16))) by (apply Rmult_le_compat_l; lra). unfold r0 in *. rewrite XS in YB. assert (0 < ex_turn * s) by (apply Rmult_lt_0_compat; lra). lra. }
    pose proof (atan_increasing _ _ L). pose proof (atan_low r0 ltac:(lra)) as LO.
    assert (RR : r0 * r0 < 1 / 8 * (1 / 8)) by (apply Rmult_le_0_lt_compat; lra). assert (0 < r0 * r0) by (apply Rmult_lt_0_compat; lra).
    assert (r0 * (64 / 65) < r0 / (1 + r0 * r0)).
    { apply Rmult_lt_compat_l; [lra|]. apply Rmult_lt_reg_r with (1 + r0 * r0); [lra|]. rewrite Rinv_l by lra. lra. }
    assert (PI / 48 = ex_turn / 2) by (unfold ex_turn; field). unfold r0 in *. lra. }
  assert (YA : side_y (PI / 4) (PI / 6) ex_turn = - y) by (unfold side_y; rewrite WA, C6, EX; reflexivity).
  assert (YD : side_y (PI / 4) (PI / 6) (- ex_turn) = y).
  { unfold side_y. rewrite WD, C6. replace (- ex_turn * sin (PI / 4)) with (- x) by (rewrite <- EX; ring). rewrite cos_neg. unfold y. ring. }
  assert (XA : side_x (PI / 4) (PI / 6) w = s * (1 - w * w + w / 2)) by (unfold side_x; rewrite SG, CG, S6; field).
  assert (XD : side_x (PI / 4) (PI / 6) (- w) = s * (1 - w * w - w / 2)) by (unfold side_x; rewrite SG, CG, S6; field).
  split; rewrite ?RA, ?RD; try assumption; try lra.
  - unfold bevel_angle. rewrite WD, YD, XD.
    pose proof (KEY (s * (1 - w * w - w / 2)) ltac:(apply Rmult_lt_0_compat; lra) ltac:(apply Rmult_le_compat_l; lra)). unfold ex_turn in *. lra.
  - unfold bevel_angle. rewrite WA, YA, XA.
    assert (P : 0 < s * (1 - w * w + w / 2)) by (apply Rmult_lt_0_compat; lra).
    pose proof (KEY (s * (1 - w * w + w / 2)) P ltac:(apply Rmult_le_compat_l; lra)).
    replace (- y / (s * (1 - w * w + w / 2))) with (- (y / (s * (1 - w * w + w / 2)))) by (field; lra). rewrite atan_opp. unfold ex_turn in *. lra.
Qed.

Lemma within_mult a b A B : - A <= a <= A -> - B <= b <= B -> - (A * B) <= a * b <= A * B.
Proof.
  intros HA HB. assert (Rabs a <= A) by (apply Rabs_le; lra). assert (Rabs b <= B) by (apply Rabs_le; lra).
  assert (Rabs (a * b) <= A * B) by (rewrite Rabs_mult; apply Rmult_le_compat; try apply Rabs_pos; assumption).
  split; [|pose proof (Rle_abs (a * b)); lra]. pose proof (Rle_abs (- (a * b))). rewrite Rabs_Ropp in *. lra.
Qed.
Lemma within_sin x B : - B <= x <= B -> - B <= sin x <= B.
Proof.
  intros H. destruct (Rtotal_order x 0) as [L|[->|L]].
  - pose proof (sin_lt_x (- x) ltac:(lra)) as A. rewrite sin_neg in A. destruct (Rle_dec (- x) PI) as [P|P].
    + assert (0 <= sin (- x)) by (apply sin_ge_0; lra). rewrite sin_neg in *. lra.
    + pose proof (SIN_bound x). pose proof PI_3. lra.
  - rewrite sin_0. lra.
  - pose proof (sin_lt_x x ltac:(lra)) as A. destruct (Rle_dec x PI) as [P|P].
    + assert (0 <= sin x) by (apply sin_ge_0; lra). lra.
    + pose proof (SIN_bound x). pose proof PI_3. lra.
Qed.

Lemma ex2_clears : clears (PI / 4) (PI / 6) (- ex_turn) ex_turn.
Proof.
  intros t u T U. destruct ex_bevel_numbers as (_ & s & _ & _ & S & _ & _ & SG & CG & _). pose proof PI_4. pose proof PI_3.
  assert (C6 : cos (PI / 6) = sqrt 3 / 2) by apply cos_PI6. assert (S6 : sin (PI / 6) = 1 / 2) by apply sin_PI6.
  assert (S3 : 17 / 10 < sqrt 3) by (apply sqrt_bound; lra). assert (S3' : sqrt 3 < 174 / 100) by (apply sqrt_bound_up; lra).
  assert (T0 : 0 < ex_turn <= 1 / 6) by (unfold ex_turn; lra).
  assert (SS : s * s = 1 / 2) by (pose proof (sc1 (PI / 4)) as K; rewrite SG, CG in K; lra).
  assert (SU : s < 71 / 100). { apply Rnot_le_lt. intros L. assert (71 / 100 * (71 / 100) <= s * s) by (apply Rmult_le_compat; lra). lra. }
  set (ca := cos (PI / 6)) in *. assert (CA : 0 < ca < 87 / 100) by lra.
  assert (BT : - (12 / 100) <= sin (t * s) <= 12 / 100). { apply within_sin. pose proof (within_mult t s (1 / 6) (71 / 100) ltac:(lra) ltac:(lra)). lra. }
  assert (BU : - (12 / 100) <= sin (u * s) <= 12 / 100). { apply within_sin. pose proof (within_mult u s (1 / 6) (71 / 100) ltac:(lra) ltac:(lra)). lra. }
  set (w := reach_sin (PI / 4) (PI / 6) u).
  assert (W : - (105 / 1000) <= w <= 105 / 1000). { unfold w, reach_sin. rewrite SG. fold ca. pose proof (within_mult ca (sin (u * s)) (87 / 100) (12 / 100) ltac:(lra) BU). lra. }
  assert (WW : 0 <= w * w <= 12 / 1000). { split; [apply Rle_0_sqr|]. pose proof (within_mult w w _ _ W W). lra. }
  assert (XE : side_x (PI / 4) (PI / 6) w = s * (1 - w * w + w / 2)) by (unfold side_x; rewrite SG, CG, S6; field).
  assert (ZE : at_z (PI / 4) (PI / 6) u = s * (1 - w * w - w / 2)) by (unfold at_z; fold w; cbv zeta; rewrite SG, CG, S6; field).
  assert (X0 : 65 / 100 <= side_x (PI / 4) (PI / 6) w <= 75 / 100).
  { rewrite XE. split.
    - assert (7 / 10 * (93 / 100) <= s * (1 - w * w + w / 2)) by (apply Rmult_le_compat; lra). lra.
    - assert (s * (1 - w * w + w / 2) <= 71 / 100 * (1053 / 1000)) by (apply Rmult_le_compat; lra). lra. }
  assert (Z0 : 65 / 100 <= at_z (PI / 4) (PI / 6) u <= 75 / 100).
  { rewrite ZE. split.
    - assert (7 / 10 * (93 / 100) <= s * (1 - w * w - w / 2)) by (apply Rmult_le_compat; lra). lra.
    - assert (s * (1 - w * w - w / 2) <= 71 / 100 * (1053 / 1000)) by (apply Rmult_le_compat; lra). lra. }
  assert (Y0 : - (92 / 1000) <= side_y (PI / 4) (PI / 6) u <= 92 / 1000).
  { unfold side_y. fold w. fold ca. pose proof (COS_bound (u * sin (PI / 4))).
    pose proof (within_mult ca (cos (u * sin (PI / 4))) (87 / 100) 1 ltac:(lra) ltac:(lra)) as K. pose proof (within_mult w (ca * cos (u * sin (PI / 4))) _ _ W K). lra. }
  set (e := u - t). assert (E : - (1 / 3) <= e <= 1 / 3) by (unfold e; lra).
  pose proof (within_sin e _ E) as SE. assert (CE : 94 / 100 <= cos e <= 1).
  { split; [|apply COS_bound]. pose proof (within_sin (e / 2) (1 / 6) ltac:(lra)) as K. pose proof (within_mult _ _ _ _ K K) as K2.
    replace e with (2 * (e / 2)) by field. rewrite cos_2a_sin. lra. }
  set (x := at_x (PI / 4) (PI / 6) t u). set (y := at_y (PI / 4) (PI / 6) t u).
  pose proof (within_mult _ _ _ _ Y0 SE) as YS.
  assert (X : 58 / 100 <= x <= 79 / 100).
  { unfold x, at_x. fold w e. split.
    - assert (65 / 100 * (94 / 100) <= side_x (PI / 4) (PI / 6) w * cos e) by (apply Rmult_le_compat; lra). lra.
    - assert (side_x (PI / 4) (PI / 6) w * cos e <= 75 / 100 * 1) by (apply Rmult_le_compat; lra). lra. }
  assert (Y : y <= 342 / 1000).
  { unfold y, at_y. fold w e. pose proof (within_mult (side_x (PI / 4) (PI / 6) w) (sin e) (75 / 100) (1 / 3) ltac:(lra) SE).
    pose proof (within_mult _ (cos e) _ 1 Y0 ltac:(lra)). lra. }
  unfold roll_margin. fold x y ca. rewrite SG, CG, S6. set (z := at_z (PI / 4) (PI / 6) u) in *.
  replace (s * ca * sin (t * s) * (x * s - z * s)) with (s * s * (ca * (sin (t * s) * (x - z)))) by ring. rewrite SS.
  pose proof (within_mult (sin (t * s)) (x - z) _ (21 / 100) BT ltac:(lra)) as K1. pose proof (within_mult ca _ (87 / 100) _ ltac:(lra) K1) as K2.
  assert (CT : 0 <= cos (t * s) <= 1).
  { split; [|apply COS_bound]. pose proof (within_mult t s (1 / 6) (71 / 100) ltac:(lra) ltac:(lra)). apply cos_ge_0; lra. }
  assert (K3 : ca * cos (t * s) * s * y <= 87 / 100 * 1 * (71 / 100) * (342 / 1000)).
  { assert (P : 0 <= ca * cos (t * s) * s) by (apply Rmult_le_pos; [apply Rmult_le_pos|]; lra).
    assert (Q : ca * cos (t * s) * s <= 87 / 100 * 1 * (71 / 100)) by (apply Rmult_le_compat; [apply Rmult_le_pos; lra|lra|apply Rmult_le_compat; lra|lra]).
    apply Rle_trans with (ca * cos (t * s) * s * (342 / 1000)); [apply Rmult_le_compat_l; lra|apply Rmult_le_compat_r; lra]. }
  lra.
Qed.

Definition ex2_param : iparam := mkIP 24 2 0 (2 * (PI / 4)) ORIGIN 0 3 false 0 0 0 0 ex2_ha ex2_hd (PI / 6) 0 0 false 0.
Definition ex2_gear : igear := ig_new ex2_param.
Lemma ex2_made : bevel_gear ex2_gear 24 (PI / 4) /\ conical ex2_gear 24 (PI / 4) /\ (forall z, ig_pia ex2_gear z = PI / 48) /\ ig_in ex2_gear = ex2_param /\
  k_ho (ig_core ex2_gear) = 2 /\ / 10 ^ 12 <= norm (project_plane (normalize RIGHT) (axis_of ex2_gear)).
Proof.
  pose proof PI_RGT_0. assert (NN : ip_normalise ex2_param = ex2_param).
  { unfold ip_normalise, ex2_param. cbn [ip_teeth]. destruct (Rlt_dec 24 0); [lra|reflexivity]. }
  assert (EI : ig_in ex2_gear = ex2_param) by (unfold ex2_gear, ig_new; rewrite NN; reflexivity).
  assert (EC : ig_core ex2_gear = calc_params ex2_param) by (unfold ex2_gear, ig_new; rewrite NN; reflexivity).
  split; [|split; [|split; [|split; [exact EI|split; [rewrite EC; reflexivity|]]]]].
  - split; rewrite ?EI, ?EC; try reflexivity; try lia.
    + cbn. lra.
    + cbn. apply rotation_I.
  - apply (ig_new_conical ex2_param 24 (PI / 4)); cbn; try reflexivity; try lia; lra.
  - intros z. unfold ig_pia, crowning. rewrite EI, EC. cbn [ex2_param calc_params k_rp k_tooth_angle ip_height ip_crown ip_teeth ip_shift ip_alpha ip_backlash].
    unfold Rdiv. field.
  - assert (E : project_plane (normalize RIGHT) (axis_of ex2_gear) = RIGHT).
    { unfold axis_of. rewrite EC. unfold normalize. rewrite (norm_eq RIGHT 1) by (try lra; vec_simpl; ring). unfold project_plane, g_z_axis, col3. cbn. apply vec_eq; vec_simpl; field. }
    rewrite E, (norm_eq RIGHT 1) by (try lra; vec_simpl; ring). assert (/ 10 ^ 12 < 1) by lra. lra.
Qed.
Lemma ex2_pair : exists g', bevel_meshed ex2_gear ex2_gear 0 0 0 RIGHT 0 0 g' 24 24 (PI / 4) (PI / 4) /\ bevel_mates ex2_gear ex2_gear.
Proof.
  destruct ex2_made as (BG & C & PA & EI & HO & TA). pose proof PI_RGT_0. assert (MA : matched ex2_gear ex2_gear (PI / 4) (PI / 4)) by reflexivity.
  destruct (mesh_to_bevel_ok ex2_gear ex2_gear 0 0 0 RIGHT 0 0 _ _ _ _ C C TA) as (g' & HM). exists g'.
  pose proof (bevel_distance _ _ _ _ _ _ _ _ _ _ _ _ _ C C TA HM MA) as D. cbn zeta in D.
  assert (IN : ip_inside (ig_in ex2_gear) = false) by (rewrite EI; reflexivity).
  assert (PR : pitch_r ex2_gear = 36) by (unfold pitch_r; rewrite EI; cbn; field).
  rewrite IN, PR in D. unfold shaft_angle in D. cbn [orb] in D. replace (PI / 4 + PI / 4) with (PI / 2) in D by field.
  rewrite sin_PI2, sin_cos_PI4 in D. pose proof (cos_gt_0 (PI / 4) ltac:(lra) ltac:(lra)).
  replace (36 / cos (PI / 4) * cos (PI / 4) * 1) with 36 in D by (field; lra). assert (/ 10 ^ 12 < 1) by lra.
  split; [split; try assumption; try reflexivity; try lra|].
  split; [reflexivity| |]; rewrite EI; cbn [ex2_param ip_alpha ip_helix]; [lra|]. rewrite tan_0. ring.
Qed.
Lemma ex2_no_play g' z : bevel_meshed ex2_gear ex2_gear 0 0 0 RIGHT 0 0 g' 24 24 (PI / 4) (PI / 4) -> bevel_mates ex2_gear ex2_gear -> one_sided_play g' ex2_gear 24 24 z = 0.
Proof.
  intros BM MT. destruct ex2_made as (_ & _ & _ & EI & _). pose proof (C113_play _ _ _ _ _ _ _ _ _ _ _ _ _ z BM MT) as K. rewrite EI in K.
  cbn [ex2_param ip_crown ip_backlash ip_shift] in K. specialize (K eq_refl eq_refl). pose proof PI_RGT_0. apply Rmult_eq_reg_r with PI; [rewrite K; ring|lra].
Qed.
Lemma ex2_moved g' z : bevel_meshed ex2_gear ex2_gear 0 0 0 RIGHT 0 0 g' 24 24 (PI / 4) (PI / 4) -> ig_in g' = ex2_param /\ ig_pia g' z = PI / 48 /\ k_ho (ig_core g') = 2.
Proof.
  intros BM. destruct ex2_made as (_ & _ & PA & EI & HO & _). destruct (bm_moved _ _ _ _ _ _ _ _ _ _ _ _ _ BM) as (IN & CO & _). rewrite EI in IN. split; [exact IN|].
  rewrite (co_core _ _ _ CO). unfold ig_pia. rewrite (co_core _ _ _ CO), IN. split; [|reflexivity].
  unfold crowning. cbn [ex2_param with_trf calc_params k_rp k_tooth_angle ip_height ip_crown ip_teeth ip_shift ip_alpha ip_backlash]. unfold Rdiv. field.
Qed.

Example C113_contact_example : exists g' xs (c : Z), ig_mesh_to ex2_gear ex2_gear 0 0 0 RIGHT 0 0 = Ok g' /\ forall x z,
  let t := touching false g' 24 (x - xs) z 0 in
  in_space g' 24 x z 0 (flank false g' 24 (PI / 4) z t) = in_space ex2_gear 24 (- x) z (mate false c 0) (flank false ex2_gear 24 (PI / 4) z (- t)).
Proof.
  destruct ex2_pair as (g' & BM & MT). destruct (C113_contact _ _ _ _ _ _ _ _ _ _ _ _ _ BM MT) as (xs & c & K). exists g', xs, c.
  split; [apply (bm_mesh _ _ _ _ _ _ _ _ _ _ _ _ _ BM)|]. intros x z. cbv zeta.
  destruct (K false x (- x) z 0%Z ltac:(cbn [signed]; rewrite (ex2_no_play g' z BM MT); ring)) as (E & _). cbv zeta in E.
  replace (- (touching false g' 24 (x - xs) z 0 * 24 / 24)) with (- touching false g' 24 (x - xs) z 0) in E by field. exact E.
Qed.
Example C113_apart_example : exists g' xs (c : Z), ig_mesh_to ex2_gear ex2_gear 0 0 0 RIGHT 0 0 = Ok g' /\ forall u1 u2,
  - ex_turn <= u1 <= ex_turn -> - ex_turn <= u2 <= ex_turn ->
  let x := xs + 1 / 4 in let k2 := mate false c 0 in
  in_space g' 24 x 0 0 (flank false g' 24 (PI / 4) 0 u1) = in_space ex2_gear 24 (- x) 0 k2 (flank false ex2_gear 24 (PI / 4) 0 u2) -> u1 = 0 /\ u2 = 0.
Proof.
  destruct ex2_pair as (g' & BM & MT). destruct ex2_made as (_ & _ & _ & EI & _). pose proof PI_RGT_0.
  assert (CL : clears (PI / 4) (ip_alpha (ig_in ex2_gear)) (- ex_turn) ex_turn) by (rewrite EI; exact ex2_clears).
  destruct (C113_apart _ _ _ _ _ _ _ _ _ _ _ _ _ _ _ _ _ BM MT CL CL) as (xs & c & K). exists g', xs, c.
  split; [apply (bm_mesh _ _ _ _ _ _ _ _ _ _ _ _ _ BM)|]. intros u1 u2 U1 U2 x k2 EQ. destruct (ex2_moved g' 0 BM) as (_ & PA & _).
  assert (T0 : touching false g' 24 (x - xs) 0 0 = 0) by (unfold touching, x; cbn [signed]; rewrite PA; field).
  pose proof (K false x (- x) 0 0%Z ltac:(cbn [signed]; rewrite (ex2_no_play g' 0 BM MT); ring)) as Q. cbv zeta in Q. rewrite T0 in Q.
  replace (- (0 * 24 / 24)) with 0 in Q by field. fold k2 in Q.
  assert (T : 0 < ex_turn) by (unfold ex_turn; lra).
  destruct (Q ltac:(apply slant_pos; lra) ltac:(lra) ltac:(lra)) as (_ & O & _). exact (O u1 u2 U1 U2 EQ).
Qed.
Lemma ex2_long : Rmax (- ex_turn) (- (ex_turn * 24 / 24)) + 2 * PI / 24 <= Rmin ex_turn (- (- ex_turn * 24 / 24)).
Proof.
  replace (- (ex_turn * 24 / 24)) with (- ex_turn) by field. replace (- (- ex_turn * 24 / 24)) with ex_turn by field.
  rewrite Rmax_left, Rmin_left by lra. unfold ex_turn. lra.
Qed.
Example C113_never_interrupted_example : exists g', ig_mesh_to ex2_gear ex2_gear 0 0 0 RIGHT 0 0 = Ok g' /\ forall up x z, exists k1 k2 t1 t2,
  - ex_turn <= t1 <= ex_turn /\ - ex_turn <= t2 <= ex_turn /\
  in_space g' 24 x z k1 (flank up g' 24 (PI / 4) z t1) = in_space ex2_gear 24 (- x) z k2 (flank up ex2_gear 24 (PI / 4) z t2).
Proof.
  destruct ex2_pair as (g' & BM & MT). exists g'. split; [apply (bm_mesh _ _ _ _ _ _ _ _ _ _ _ _ _ BM)|]. intros up x z.
  apply (C113_never_interrupted _ _ _ _ _ _ _ _ _ _ _ _ _ _ _ _ _ BM MT ex2_long up x (- x) z). rewrite (ex2_no_play g' z BM MT). destruct up; cbn [signed]; ring.
Qed.
Example C113_play_example : exists g', ig_mesh_to ex2_gear ex2_gear 0 0 0 RIGHT 0 0 = Ok g' /\ forall z, one_sided_play g' ex2_gear 24 24 z = 0.
Proof.
  destruct ex2_pair as (g' & BM & MT). exists g'. split; [apply (bm_mesh _ _ _ _ _ _ _ _ _ _ _ _ _ BM)|]. intros z. apply (ex2_no_play g' z BM MT).
Qed.
Example C113_profiles_example fs : exists g' sv ts p1 p2, ig_mesh_to ex2_gear ex2_gear 0 0 0 RIGHT 0 0 = Ok g' /\
  ig_profile sv fs ts g' 0 = Ok p1 /\ ig_profile sv fs ts ex2_gear 0 = Ok p2 /\ forall x, exists k1 k2 s1 s2, 0 <= s1 <= 1 /\ 0 <= s2 <= 1 /\
  in_space g' 24 x 0 k1 (n_point (pr_tooth p1) s1) = in_space ex2_gear 24 (- x) 0 k2 (n_point (pr_tooth p2) s2).
Proof.
  destruct ex2_pair as (g' & BM & MT). destruct ex2_made as (BG & _ & PA & EI & HO & _). destruct (ex2_moved g' 0 BM) as (EI' & PA' & HO').
  pose proof ex2_bevel as BT. pose proof PI_3. pose proof PI_4. assert (T0 : 0 < ex_turn < 1 / 5) by (unfold ex_turn; lra).
  destruct (C111_solvable 12 (PI / 4) (PI / 6) (PI / 48) ex2_ha ex2_hd 2 (PI / 12) (- ex_turn) 1 (- ex_turn) ex_turn None (- ex_turn) 1 BT) as (sv & ts & A & B); try lra.
  cbv zeta in B. destruct B as (_ & _ & B & C). exists g', sv, ts.
  assert (Q : forall h, ig_in h = ex2_param -> ig_pia h 0 = PI / 48 -> k_ho (ig_core h) = 2 ->
    bevel_at h 24 (PI / 4) 0 (- ex_turn) 1 (- ex_turn) ex_turn /\ bevel_searched sv ts h 24 (PI / 4) 0 (- ex_turn) 1).
  { intros h E1 E2 E3. unfold bevel_at, bevel_searched. rewrite E1, E2, E3. cbn [ex2_param ip_alpha ip_add ip_ded ip_shift]. cbv zeta.
    replace (24 / 2) with 12 by field. replace (2 * PI / 24) with (PI / 12) by field. rewrite Rplus_0_r, Rminus_0_r. auto. }
  destruct (Q g' EI' PA' HO') as (BA1 & SE1). destruct (Q ex2_gear EI (PA 0) HO) as (BA2 & SE2).
  destruct (C113_profiles sv ts sv ts fs _ _ _ _ _ _ _ _ _ _ _ _ _ 0 _ _ _ _ _ _ _ _ BM MT BG BG BA1 SE1 BA2 SE2 ex2_long) as (p1 & p2 & P1 & P2 & K).
  exists p1, p2. split; [apply (bm_mesh _ _ _ _ _ _ _ _ _ _ _ _ _ BM)|]. split; [exact P1|]. split; [exact P2|]. intros x.
  destruct (K false x (- x) ltac:(cbn [signed]; rewrite (ex2_no_play g' 0 BM MT); ring)) as (k1 & k2 & s1 & s2 & S1 & S2 & E). exists k1, k2, s1, s2. auto.
Qed.
