(** Property C92: the planar involute flank and the reference rack flank roll on each other.
    Property C93: the undercut curve is the path of the rack's corner, and the test for undercut. *)
From Coq Require Import Nsatz Reals Lra Psatz List Bool.
From Coquelicot Require Import Coquelicot.
From Verif Require Import Num Vec Transform Params Coords CoordsProps Gen GenProps GenDiffProps Interp Curve CurveLem CurveProps
  ArcLem ArcProps Chain GearLem MeshDistProps Profile Tooth Teeth.
Import ListNotations.
Open Scope R_scope.

(** The gear turns by [tau] about its axis while the rack moves by [rp tau] along the tangent of the pitch circle. *)
Definition turned (tau : R) (p : vec) : vec := mapp (rotz tau) p.
Definition moved (rp tau : R) (p : vec) : vec := vadd p (smul (rp * tau) UP).
(** Normal of the rack flank, pointing away from the tooth. *)
Definition away (alpha : R) : vec := V (sin alpha) (- cos alpha) 0.
Definition along (alpha : R) : vec := V (cos alpha) (sin alpha) 0.
(** The pitch point, where the pitch circle touches the rack's pitch line. *)
Definition pitch_point (rp : R) : vec := V rp 0 0.

(** The intersection of the raw involute with the pitch circle is found. *)
Definition solved (ts : tsolver) (rp alpha : R) : Prop :=
  s2_exact rp alpha (snd (fst (ts_meet ts EQUALITY (Prim (involute_curve0 rp alpha)) (pitch_circle rp) (/ 2) 0))).
Record usual (rp alpha : R) (lm : limits) : Prop := {
  us_rp : 0 < rp; us_alpha : 0 < alpha < PI / 2; us_inv : inv alpha <= PI; us_h : 0 < lm_ha lm + lm_hd lm }.

Ltac eqR := match goal with |- ?x = ?y => change (@eq R x y) end.
Definition flank_at (rp alpha pia t : R) : vec :=
  involute_circle t (rp * cos alpha) (- (pia + (tan alpha - alpha))) ORIGIN 0.

Lemma flank_fun ts rp alpha pia lm : usual rp alpha lm -> solved ts rp alpha ->
  forall t, c_fun (plane_involute_flank ts rp alpha pia) t = flank_at rp alpha pia t.
Proof.
  intros [R0 A0 I0 _] S t. unfold solved in S. unfold plane_involute_flank, flank_at.
  destruct (ts_meet ts EQUALITY _ _ _ _) as [[ok x0] x1]. cbn [fst snd] in S.
  change (c_fun (set_end_on (involute_curve1 rp alpha pia x0) _) t) with
    (involute_circle t (rp * cos alpha) (base_angle rp alpha pia x0) ORIGIN 0).
  rewrite (C42_tooth_base_angle rp alpha pia x0) by (assumption || lra). reflexivity.
Qed.

Lemma rack_eval rp pia alpha lm u : cos alpha <> 0 ->
  c_eval (plane_rack rp pia alpha lm) u =
  vadd (V rp (- (rp * pia)) 0) (smul ((u * (lm_ha lm + lm_hd lm) - lm_hd lm) / cos alpha) (along alpha)).
Proof.
  intros C. unfold plane_rack. rewrite line_eval. unfold along. apply vec_eq; vec_simpl; field; exact C.
Qed.

(** The place of the flank in the pose of contact. *)
Lemma turned_flank rp alpha pia t t' : cos alpha <> 0 ->
  turned (pia + tan alpha - t) (flank_at rp alpha pia t') =
  vadd (smul (rp * cos alpha) (V (cos (alpha + (t' - t))) (sin (alpha + (t' - t))) 0))
       (smul (rp * cos alpha * t') (V (sin (alpha + (t' - t))) (- cos (alpha + (t' - t))) 0)).
Proof.
  intros C. unfold turned, flank_at, involute_circle.
  replace (smul 0 OUT) with ORIGIN by vec_ring. rewrite vadd_0_r, <- mapp_mmul, rotz_plus.
  replace (pia + tan alpha - t + (t' + - (pia + (tan alpha - alpha)))) with (alpha + (t' - t)) by ring.
  generalize (alpha + (t' - t)). intros b. vec_ring.
Qed.

(** C92: in the pose [pia + tan alpha - t] the flank point [t] is on the rack flank, and on the line of action, which
    passes through the pitch point at the pressure angle. *)
Theorem C92_touches ts rp alpha pia lm t : usual rp alpha lm -> solved ts rp alpha ->
  let tau := pia + tan alpha - t in
  let p := turned tau (c_fun (plane_involute_flank ts rp alpha pia) t) in
  (exists u, p = moved rp tau (c_eval (plane_rack rp pia alpha lm) u)) /\
  exists k, vsub p (pitch_point rp) = smul k (away alpha).
Proof.
  intros U S. cbn zeta. rewrite (flank_fun ts rp alpha pia lm U S). destruct U as [R0 A0 I0 H0].
  assert (C : 0 < cos alpha) by (apply cos_gt_0; lra). pose proof (sc1 alpha) as SC.
  rewrite turned_flank by lra. replace (alpha + (t - t)) with alpha by ring.
  split.
  - exists ((rp * sin alpha * (t * cos alpha - sin alpha) + lm_hd lm) / (lm_ha lm + lm_hd lm)).
    rewrite rack_eval by lra.
    replace ((rp * sin alpha * (t * cos alpha - sin alpha) + lm_hd lm) / (lm_ha lm + lm_hd lm) * (lm_ha lm + lm_hd lm) - lm_hd lm)
      with (rp * sin alpha * (t * cos alpha - sin alpha)) by (field; lra).
    unfold moved, along, tan, Rdiv. pose proof (Rinv_l (cos alpha) (Rgt_not_eq _ _ C)) as IC.
    generalize dependent (/ cos alpha). intros i IC. clear - SC IC. apply vec_eq; vec_simpl; nsatz.
  - exists (rp * (t * cos alpha - sin alpha)). unfold pitch_point, away. apply vec_eq; vec_simpl; nsatz.
Qed.

(** The flank and the rack flank have the same direction there. *)
Theorem C92_tangent ts rp alpha pia lm t : usual rp alpha lm -> solved ts rp alpha ->
  velocity (fun x => turned (pia + tan alpha - t) (c_fun (plane_involute_flank ts rp alpha pia) x)) t
    (smul (rp * cos alpha * t) (along alpha)).
Proof.
  intros U S. pose proof (flank_fun ts rp alpha pia lm U S) as F. destruct U as [R0 A0 I0 H0].
  assert (C : 0 < cos alpha) by (apply cos_gt_0; lra).
  apply (velocity_ext (fun x => mapp (rotz (x + (alpha - t))) (V (rp * cos alpha) (- (rp * cos alpha) * x) 0)))
    with (v := mapp (rotz (t + (alpha - t))) (vadd (V 0 (- (rp * cos alpha)) 0) (cross OUT (V (rp * cos alpha) (- (rp * cos alpha) * t) 0)))).
  - intros x. rewrite F, turned_flank by lra. replace (alpha + (x - t)) with (x + (alpha - t)) by ring.
    generalize (x + (alpha - t)). intros b. vec_ring.
  - replace (t + (alpha - t)) with alpha by ring. unfold along. vec_ring.
  - apply (velocity_turning (fun s => V (rp * cos alpha) (- (rp * cos alpha) * s) 0)).
    split; [|split]; cbn [vx vy vz]; auto_derive; try exact I; ring.
Qed.

(** The signed distance from the rack flank. *)
Definition gap (t d : R) : R := (t + d) * cos d - sin d - t.
Lemma gap_derive t d : derivable_pt_lim (gap t) d (- (t + d) * sin d).
Proof.
  apply is_derive_Reals. unfold gap. auto_derive; [exact I|]. ring.
Qed.
Lemma gap_neg t d : 0 <= t -> 0 <= t + d -> - PI < d < PI -> d <> 0 -> gap t d < 0.
Proof.
  intros T T' D N. pose proof PI_RGT_0.
  destruct (Rdichotomy _ _ N) as [L|L].
  - destruct (MVT_cor2 (gap t) (fun x => - (t + x) * sin x) d 0 L) as (c & E & B); [intros; apply gap_derive|].
    assert (sin c < 0) by (apply sin_lt_0_var; lra).
    replace (gap t 0) with 0 in E by (unfold gap; rewrite cos_0, sin_0; ring).
    assert (0 < (t + c) * - sin c) by (apply Rmult_lt_0_compat; lra).
    assert (0 < (t + c) * - sin c * - d) by (apply Rmult_lt_0_compat; lra). lra.
  - destruct (MVT_cor2 (gap t) (fun x => - (t + x) * sin x) 0 d L) as (c & E & B); [intros; apply gap_derive|].
    assert (0 < sin c) by (apply sin_gt_0; lra).
    replace (gap t 0) with 0 in E by (unfold gap; rewrite cos_0, sin_0; ring).
    assert (0 < (t + c) * sin c) by (apply Rmult_lt_0_compat; lra).
    assert (0 < (t + c) * sin c * d) by (apply Rmult_lt_0_compat; lra). lra.
Qed.

Lemma flank_gap rp alpha pia lm t t' u : 0 < cos alpha ->
  dot (vsub (turned (pia + tan alpha - t) (flank_at rp alpha pia t'))
            (moved rp (pia + tan alpha - t) (c_eval (plane_rack rp pia alpha lm) u))) (away alpha) =
  rp * cos alpha * gap t (t' - t).
Proof.
  intros C. rewrite turned_flank, rack_eval by lra. unfold moved, along, away, gap. pose proof (sc1 alpha) as SC.
  rewrite cos_plus, sin_plus. set (d := t' - t). replace t' with (t + d) by (unfold d; ring). clearbody d.
  generalize ((u * (lm_ha lm + lm_hd lm) - lm_hd lm) / cos alpha). intros k.
  unfold tan, Rdiv. pose proof (Rinv_l (cos alpha) (Rgt_not_eq _ _ C)) as IC. pose proof (sc1 d) as SD.
  generalize dependent (/ cos alpha). intros i IC. clear - SC IC SD. vec_simpl. nsatz.
Qed.

(** Nowhere else does the flank reach the rack: it stays on the tooth's side of the rack flank. *)
Theorem C92_one_side ts rp alpha pia lm t t' u : usual rp alpha lm -> solved ts rp alpha ->
  0 <= t -> 0 <= t' -> t' <> t -> Rabs (t' - t) < PI ->
  let tau := pia + tan alpha - t in
  dot (vsub (turned tau (c_fun (plane_involute_flank ts rp alpha pia) t'))
            (moved rp tau (c_eval (plane_rack rp pia alpha lm) u))) (away alpha) < 0.
Proof.
  intros U S T T' N D. cbn zeta. rewrite (flank_fun ts rp alpha pia lm U S). destruct U as [R0 A0 I0 H0].
  assert (C : 0 < cos alpha) by (apply cos_gt_0; lra). rewrite flank_gap by exact C.
  apply Rabs_def2 in D. assert (G : gap t (t' - t) < 0) by (apply gap_neg; lra).
  assert (0 < rp * cos alpha * - gap t (t' - t)) by (apply Rmult_lt_0_compat; [apply Rmult_lt_0_compat|]; lra). lra.
Qed.

(** Every pose of the rack before [pia + tan alpha] touches the flank in exactly one point. *)
Theorem C92_every_pose ts rp alpha pia lm tau : usual rp alpha lm -> solved ts rp alpha -> tau <= pia + tan alpha ->
  exists t, 0 <= t /\
   (forall t', 0 <= t' -> Rabs (t' - t) < PI ->
    ((exists u, turned tau (c_fun (plane_involute_flank ts rp alpha pia) t') = moved rp tau (c_eval (plane_rack rp pia alpha lm) u))
     <-> t' = t)).
Proof.
  intros U S L. exists (pia + tan alpha - tau). split; [lra|]. intros t' T' D.
  set (t := pia + tan alpha - tau) in *. assert (ET : pia + tan alpha - t = tau) by (unfold t; ring). split.
  - intros (u & E). destruct (Req_dec t' t) as [|N]; [assumption|exfalso].
    assert (T : 0 <= t) by (unfold t; lra).
    pose proof (C92_one_side ts rp alpha pia lm t t' u U S T T' N D) as G. cbn zeta in G. rewrite ET, E in G.
    revert G. generalize (moved rp tau (c_eval (plane_rack rp pia alpha lm) u)). intros q.
    replace (dot (vsub q q) (away alpha)) with 0 by (unfold away; destruct q as [a b c]; vec_simpl; ring). lra.
  - intros ->. pose proof (proj1 (C92_touches ts rp alpha pia lm t U S)) as T. cbn zeta in T. rewrite ET in T. exact T.
Qed.

(** ** C93 *)
(** The corner [P] of the rack, in the pose [- t], is the point [t] of the undercut curve. *)
Theorem C93_path rp P t : turned (- t) (c_fun (plane_undercut rp P) t) = moved rp (- t) P.
Proof.
  unfold turned, moved, plane_undercut. change (c_fun (new_curve (SGen ?f) true 0 (- (1)) NDIV) t) with (f t). 
  unfold involute_circle. replace (smul 0 OUT) with ORIGIN by vec_ring. rewrite vadd_0_r, <- mapp_mmul, rotz_plus.
  replace (- t + (t + 0)) with 0 by ring. rewrite rotz_0, mapp_I. vec_ring.
Qed.

(** The undercut curve starts at the corner. *)
Theorem C93_start rp P : c_eval (plane_undercut rp P) 0 = P.
Proof.
  rewrite fresh_start.
  - change (involute_circle 0 rp 0 (vsub P (smul rp RIGHT)) 0 = P). unfold involute_circle.
    rewrite Rplus_0_r, rotz_0, mapp_I. vec_ring.
  - apply new_fresh.
  - cbn. unfold NDIV. lia.
Qed.

(** The corner is the lower end of the rack flank, unless that is beyond the middle of the tooth gap; then it is the
    point of the flank on the middle line. *)
Theorem C93_corner ts rp pia alpha lm pitch_angle : 0 < rp -> 0 < alpha < PI / 2 -> 0 < lm_ha lm + lm_hd lm ->
  let rack := plane_rack rp pia alpha lm in
  let x := snd (ts_plane ts EQUALITY (Prim rack) UP (splat (- rp * pitch_angle / 2)) 1) in
  dot (vsub (c_eval rack x) (splat (- rp * pitch_angle / 2))) UP = 0 ->
  let P := plane_ref_point ts rack rp pitch_angle in
  vy P = Rmax (vy (c_eval rack 0)) (- rp * pitch_angle / 2) /\ exists u, 0 <= u /\ P = c_eval rack u.
Proof.
  intros R0 A0 H0 rack x E P. assert (C : 0 < cos alpha) by (apply cos_gt_0; lra).
  assert (S : 0 < sin alpha) by (apply sin_gt_0; lra).
  assert (M : forall u v, u <= v -> vy (c_eval rack u) <= vy (c_eval rack v)).
  { intros u v L. unfold rack. rewrite !rack_eval by lra. unfold along. vec_simpl.
    apply Rplus_le_compat_l. apply Rmult_le_compat_r; [lra|]. unfold Rdiv. apply Rmult_le_compat_r.
    - left. apply Rinv_0_lt_compat. exact C.
    - apply Rplus_le_compat_r. apply Rmult_le_compat_r; lra. }
  assert (Y : vy (c_eval rack x) = - rp * pitch_angle / 2).
  { revert E. unfold splat. generalize (c_eval rack x). intros q. destruct q as [a b c]. vec_simpl. lra. }
  unfold P, plane_ref_point. fold x. destruct (Rlt_dec 0 x) as [L|L].
  - split; [|exists x; split; [lra|reflexivity]]. rewrite Y, Rmax_right; [reflexivity|]. rewrite <- Y. apply M. lra.
  - split; [|exists 0; split; [lra|reflexivity]]. rewrite Rmax_left; [reflexivity|]. rewrite <- Y. apply M. lra.
Qed.

(** The flank point [t] touches the rack in the point [u]. *)
Definition touching (ts : tsolver) (rp alpha pia : R) (lm : limits) (t u : R) : Prop :=
  let tau := pia + tan alpha - t in
  turned tau (c_fun (plane_involute_flank ts rp alpha pia) t) = moved rp tau (c_eval (plane_rack rp pia alpha lm) u).

Lemma touching_iff ts rp alpha pia lm t u : usual rp alpha lm -> solved ts rp alpha ->
  (touching ts rp alpha pia lm t u <->
   u * (lm_ha lm + lm_hd lm) - lm_hd lm = rp * sin alpha * (t * cos alpha - sin alpha)).
Proof.
  intros U S. unfold touching. cbn zeta. rewrite (flank_fun ts rp alpha pia lm U S). destruct U as [R0 A0 I0 H0].
  assert (C : 0 < cos alpha) by (apply cos_gt_0; lra). pose proof (sc1 alpha) as SC.
  rewrite turned_flank, rack_eval by lra. replace (alpha + (t - t)) with alpha by ring.
  set (w := u * (lm_ha lm + lm_hd lm) - lm_hd lm).
  pose proof (Rinv_l (cos alpha) (Rgt_not_eq _ _ C)) as IC. split.
  - intros E. apply (f_equal vx) in E. unfold moved, along, Rdiv in E. clearbody w.
    generalize dependent (/ cos alpha). intros i IC E. clear - SC IC E. vec_simpl. nsatz.
  - intros ->. unfold moved, along, tan, Rdiv.
    generalize dependent (/ cos alpha). intros i IC. clear - SC IC. apply vec_eq; vec_simpl; nsatz.
Qed.

(** The whole rack flank works on the involute proper exactly when it is not deeper than [rp sin^2 alpha]. *)
Theorem C93_undercut_iff ts rp alpha pia lm : usual rp alpha lm -> solved ts rp alpha ->
  ((forall u, 0 <= u <= 1 -> exists t, 0 <= t /\ touching ts rp alpha pia lm t u) <->
   lm_hd lm <= rp * (sin alpha * sin alpha)).
Proof.
  intros U S. assert (C : 0 < cos alpha) by (destruct U; apply cos_gt_0; lra).
  assert (SA : 0 < sin alpha) by (destruct U; apply sin_gt_0; lra).
  assert (RS : 0 < rp * sin alpha) by (destruct U; apply Rmult_lt_0_compat; assumption).
  split.
  - intros H. destruct (H 0 (conj (Rle_refl 0) Rle_0_1)) as (t & T & E).
    apply (touching_iff ts rp alpha pia lm t 0 U S) in E.
    assert (0 <= rp * sin alpha * (t * cos alpha)) by (apply Rmult_le_pos; [lra|apply Rmult_le_pos; lra]). lra.
  - intros L u B. exists (((u * (lm_ha lm + lm_hd lm) - lm_hd lm) / (rp * sin alpha) + sin alpha) / cos alpha). split.
    + apply Rmult_le_pos; [|left; apply Rinv_0_lt_compat; exact C].
      replace ((u * (lm_ha lm + lm_hd lm) - lm_hd lm) / (rp * sin alpha) + sin alpha)
        with ((u * (lm_ha lm + lm_hd lm) - lm_hd lm + rp * (sin alpha * sin alpha)) / (rp * sin alpha)) by (field; destruct U; split; lra).
      apply Rmult_le_pos; [|left; apply Rinv_0_lt_compat; exact RS].
      assert (0 <= u * (lm_ha lm + lm_hd lm)) by (destruct U; apply Rmult_le_pos; lra). lra.
    + apply (touching_iff ts rp alpha pia lm _ u U S). field. destruct U; split; lra.
Qed.

(** A tooth that is left without undercut needs none. *)
Theorem C93_untouched ts rp alpha pia pitch_angle lm : usual rp alpha lm -> solved ts rp alpha ->
  involute_base ts rp alpha 0 < rp - lm_hd lm ->
  involute_undercut_tooth ts rp alpha pia 0 pitch_angle (Some lm) = Ok (plane_involute_tooth ts rp alpha pia) /\
  forall u, 0 <= u <= 1 -> exists t, 0 <= t /\ touching ts rp alpha pia lm t u.
Proof.
  intros U S L. split.
  - unfold involute_undercut_tooth, involute_tooth_curve. destruct (Rlt_dec _ _) as [_|N]; [|contradiction].
    destruct (Req_EM_T 0 0) as [_|N]; [reflexivity|contradiction].
  - apply (C93_undercut_iff ts rp alpha pia lm U S). unfold involute_base in L.
    destruct (Req_EM_T 0 0) as [_|N]; [|contradiction]. destruct U as [R0 A0 I0 H0].
    assert (C : 0 < cos alpha) by (apply cos_gt_0; lra). pose proof (sc1 alpha) as SC.
    assert (C1 : cos alpha <= 1) by apply COS_bound.
    assert (0 <= rp * (cos alpha * (1 - cos alpha))) by (apply Rmult_le_pos; [lra|apply Rmult_le_pos; lra]).
    replace (sin alpha * sin alpha) with (1 - cos alpha * cos alpha) by lra. lra.
Qed.
