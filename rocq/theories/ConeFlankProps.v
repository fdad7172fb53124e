(** Property C95: bevel flanks pass through the pitch point and lie on the sphere of the pitch cone. *)
From Coq Require Import Nsatz Reals Lra Psatz List Bool.
From Verif Require Import Num Vec Transform Params Coords CoordsProps Gen GenProps Interp Curve CurveLem CurveProps
  ArcLem ArcProps Chain ChainLem ChainProps GearLem MeshDistProps Profile ProfileLem ProfileProps Tooth Cycloid Teeth.
Import ListNotations.
Open Scope R_scope.

(** The pitch cone of half angle [g] through the pitch circle of radius [rp]: its apex, and the distance of the pitch circle
    from it. *)
Definition cone_apex (rp g : R) : vec := smul (rp / tan g) OUT.
Definition apex_dist (rp g : R) : R := Rabs (rp / sin g).
(** On the sphere about the apex through the pitch circle, on which the flank of a bevel gear is drawn. *)
Definition on_cone_sphere (rp g : R) (p : vec) : Prop := norm (vsub p (cone_apex rp g)) = apex_dist rp g.

Lemma apex_dist_facts rp g : 0 < rp -> sin g <> 0 ->
  rp <= apex_dist rp g /\ 0 < apex_dist rp g /\ apex_dist rp g * Rabs (sin g) = rp /\
  (cos g <> 0 -> sqrt (apex_dist rp g * apex_dist rp g - rp * rp) = Rabs (rp / tan g)).
Proof.
  intros R0 S. unfold apex_dist. assert (A : 0 < Rabs (sin g)) by (apply Rabs_pos_lt; exact S).
  assert (E : Rabs (rp / sin g) * Rabs (sin g) = rp).
  { rewrite <- Rabs_mult. replace (rp / sin g * sin g) with rp by (field; exact S). apply Rabs_right. lra. }
  assert (P : 0 < Rabs (rp / sin g)) by (apply Rabs_pos_lt; intros Z; rewrite Z, Rabs_R0 in E; lra).
  assert (B : Rabs (sin g) <= 1) by (apply Rabs_le; pose proof (SIN_bound g); lra).
  split; [|split; [exact P|split; [exact E|]]].
  - rewrite <- E at 1. rewrite <- (Rmult_1_r (Rabs (rp / sin g))) at 2. apply Rmult_le_compat_l; lra.
  - intros C. rewrite <- (sqrt_Rsqr_abs (rp / tan g)). f_equal. unfold Rsqr. rewrite <- Rabs_mult.
    rewrite (Rabs_right (rp / sin g * _)) by (apply Rle_ge, Rle_0_sqr). unfold tan. pose proof (sc1 g) as Q.
    transitivity (rp * rp * (1 - sin g * sin g) / (sin g * sin g)); [field; exact S|].
    replace (1 - sin g * sin g) with (cos g * cos g) by lra. field. split; assumption.
Qed.

Lemma cos_ok g : - PI / 2 < g < PI / 2 -> 0 < cos g.
Proof. intros. apply cos_gt_0; lra. Qed.
(** The half angles of cones that open upwards or downwards, not flat and not turned inside out. *)
Lemma sin_ok g : - PI < g < PI -> g <> 0 -> sin g <> 0.
Proof.
  intros B N. destruct (Rdichotomy _ _ N) as [H|H].
  - apply Rlt_not_eq. apply sin_lt_0_var; lra.
  - apply Rgt_not_eq. apply sin_gt_0; lra.
Qed.
Lemma rp_tan rp g : 0 < rp -> - PI / 2 < g < PI / 2 -> g <> 0 -> rp / tan g = sign (sin g) * Rabs (rp / tan g).
Proof.
  intros R0 B N. pose proof (cos_ok g B) as C. unfold tan. destruct (Rdichotomy _ _ N) as [H|H].
  - assert (S : sin g < 0) by (apply sin_lt_0_var; lra). rewrite sign_neg by exact S.
    assert (rp / (sin g / cos g) < 0).
    { replace (rp / (sin g / cos g)) with (- (rp * cos g / - sin g)) by (field; lra).
      assert (0 < rp * cos g / - sin g) by (apply Rdiv_lt_0_compat; [apply Rmult_lt_0_compat|]; lra). lra. }
    rewrite Rabs_left by assumption. ring.
  - assert (S : 0 < sin g) by (apply sin_gt_0; lra). rewrite sign_pos by exact S.
    assert (0 < rp / (sin g / cos g)) by (apply Rdiv_lt_0_compat; [|apply Rdiv_lt_0_compat]; assumption).
    rewrite Rabs_right by lra. ring.
Qed.

(** ** Octoid *)
Lemma octoid_flank_fun ts rp alpha pia cone : cone <> 0 -> 0 < rp -> sin (cone / 2) <> 0 -> forall t,
  c_fun (octoid_flank ts rp alpha pia cone) t = octoid t rp (apex_dist rp (cone / 2)) alpha (- pia) ORIGIN 0.
Proof.
  intros N R0 S t. unfold octoid_flank. destruct (Req_EM_T cone 0); [contradiction|].
  change (octoid t rp (1 / (1 / apex_dist rp (cone / 2))) alpha (- pia) ORIGIN 0 = octoid t rp (apex_dist rp (cone / 2)) alpha (- pia) ORIGIN 0).
  destruct (apex_dist_facts rp (cone / 2) R0 S) as (_ & P & _).
  replace (1 / (1 / apex_dist rp (cone / 2))) with (apex_dist rp (cone / 2)) by (field; lra). reflexivity.
Qed.

(** C95: the octoid flank starts at the pitch point, at half the tooth angle from the middle plane of the tooth. *)
Theorem C95_octoid_start ts rp alpha pia cone : 0 < rp -> cone <> 0 -> sin (cone / 2) <> 0 ->
  c_eval (octoid_flank ts rp alpha pia cone) 0 = circle_pt rp (- pia).
Proof.
  intros R0 N S. destruct (apex_dist_facts rp (cone / 2) R0 S) as (L & P & _).
  rewrite fresh_start.
  - rewrite octoid_flank_fun by assumption. 
    replace (c_t0 (octoid_flank ts rp alpha pia cone)) with 0 by (unfold octoid_flank; destruct (Req_EM_T cone 0); [contradiction|reflexivity]).
    apply C27_start; lra.
  - unfold octoid_flank. destruct (Req_EM_T cone 0); [contradiction|]. apply set_end_fresh.
  - unfold octoid_flank. destruct (Req_EM_T cone 0); [contradiction|]. apply NDIV_2.
Qed.
Example C95_octoid_start_example ts : c_eval (octoid_flank ts 10 (PI / 9) (1 / 10) (PI / 2)) 0 = circle_pt 10 (- (1 / 10)).
Proof.
  pose proof PI_RGT_0. apply C95_octoid_start; [lra|lra|]. replace (PI / 2 / 2) with (PI / 4) by field.
  assert (0 < sin (PI / 4)) by (apply sin_gt_0; lra). lra.
Qed.

(** All of it is on the sphere about the apex. *)
Theorem C95_octoid_sphere ts rp alpha pia cone s : 0 < rp -> 0 < cone < PI -> sin alpha <> 0 ->
  on_cone_sphere rp (cone / 2) (c_eval (octoid_flank ts rp alpha pia cone) s).
Proof.
  intros R0 B A. assert (S : 0 < sin (cone / 2)) by (apply sin_gt_0; lra). assert (C : 0 < cos (cone / 2)) by (apply cos_gt_0; lra).
  assert (S' : sin (cone / 2) <> 0) by lra.
  destruct (apex_dist_facts rp (cone / 2) R0 S') as (L & P & _ & Z).
  unfold on_cone_sphere, c_eval. rewrite octoid_flank_fun by lra.
  rewrite <- (C27_sphere_distance (s2t (octoid_flank ts rp alpha pia cone) s) rp (apex_dist rp (cone / 2)) alpha (- pia) ORIGIN 0 P A) at 2.
  do 2 f_equal. unfold cone_apex, on_z. rewrite Z by lra. rewrite (rp_tan rp (cone / 2)) at 1 by lra.
  rewrite sign_pos by lra. vec_ring.
Qed.
Example C95_octoid_sphere_example ts s : on_cone_sphere 10 (PI / 2 / 2) (c_eval (octoid_flank ts 10 (PI / 9) (1 / 10) (PI / 2)) s).
Proof.
  pose proof PI_RGT_0. apply C95_octoid_sphere; [lra|lra|]. assert (0 < sin (PI / 9)) by (apply sin_gt_0; lra). lra.
Qed.

(** On which side of the pitch plane the octoid is: its sphere's centre is always taken above. *)
Lemma octoid_up t rp RR alpha angle : 0 < rp < RR -> 0 < alpha < PI / 2 -> 0 < t -> t * rp < PI * RR ->
  0 < vz (octoid t rp RR alpha angle ORIGIN 0).
Proof.
  intros B A T1 T2. assert (RP : 0 < RR) by lra.
  pose proof (sin_asin_div rp RR RP ltac:(lra)) as S. pose proof (cos_asin_div rp RR RP ltac:(lra)) as C.
  unfold octoid. cbv zeta. rewrite <- C. set (b := asin (rp / RR)) in *.
  assert (SB : sin b = rp / RR) by (rewrite <- S; field; lra).
  assert (SP : 0 < sin b) by (rewrite SB; apply Rdiv_lt_0_compat; lra).
  assert (CP : 0 < cos b).
  { assert (Q : 0 < RR * cos b).
    { rewrite C. apply sqrt_lt_R0. assert (0 < (RR - rp) * (RR + rp)) by (apply Rmult_lt_0_compat; lra).
      replace (RR * RR - rp * rp) with ((RR - rp) * (RR + rp)) by ring. assumption. }
    apply (Rmult_lt_reg_l RR); [exact RP|]. rewrite Rmult_0_r. exact Q. }
  assert (TP : 0 < t * sin b < PI).
  { split; [apply Rmult_lt_0_compat; assumption|]. rewrite SB. replace (t * (rp / RR)) with (t * rp / RR) by (field; lra).
    apply (Rmult_lt_reg_r RR); [exact RP|]. replace (t * rp / RR * RR) with (t * rp) by (field; lra). exact T2. }
  set (x := t * sin b) in *. assert (SX : 0 < sin x) by (apply sin_gt_0; lra).
  assert (SA : 0 < sin alpha) by (apply sin_gt_0; lra). assert (CA : 0 < cos alpha) by (apply cos_gt_0; lra).
  set (Q := sin alpha * sin alpha * (sin x * sin x) + cos x * cos x).
  pose proof (sc1 x) as X. pose proof (sc1 alpha) as Y.
  assert (Q1 : 0 < Q).
  { unfold Q. assert (0 < sin alpha * sin alpha * (sin x * sin x)) by (repeat apply Rmult_lt_0_compat; assumption).
    assert (0 <= cos x * cos x) by apply Rle_0_sqr. lra. }
  assert (Q2 : Q < 1).
  { unfold Q. assert (0 < cos alpha * cos alpha * (sin x * sin x)) by (repeat apply Rmult_lt_0_compat; assumption).
    replace (sin alpha * sin alpha) with (1 - cos alpha * cos alpha) by lra. lra. }
  assert (SQ : 0 < sqrt Q < 1).
  { split; [apply sqrt_lt_R0; exact Q1|]. rewrite <- sqrt_1. apply sqrt_lt_1; lra. }
  pose proof (sqrt_sqrt Q ltac:(lra)) as QQ.
  vec_simpl. rewrite cos_PI, sin_PI.
  match goal with |- 0 < ?e => replace e with (RR * (cos b * (1 - sqrt Q) + sin b * (sin alpha * cos alpha * sin x) / sqrt Q)) end.
  - apply Rmult_lt_0_compat; [exact RP|]. apply Rplus_lt_0_compat.
    + apply Rmult_lt_0_compat; lra.
    + apply Rdiv_lt_0_compat; [|lra]. repeat apply Rmult_lt_0_compat; assumption.
  - fold Q. assert (I1 : / sqrt Q * sqrt Q = 1) by (apply Rinv_l; lra). unfold Rdiv.
    assert (QE : sin alpha * sin alpha * (sin x * sin x) + cos x * cos x = sqrt Q * sqrt Q) by (symmetry; exact QQ).
    clear - I1 QE. generalize dependent (sqrt Q). intros q. generalize (/ q). clearbody x b. intros i I1 QE.
    generalize dependent (sin x). generalize dependent (cos x). generalize dependent (sin alpha). generalize dependent (cos alpha).
    generalize (sin b) (cos b). intros. nsatz.
Qed.

(** C95: not so for a cone that opens the other way (negative angle) or is wider than flat (ring gears): there the sphere
    of the octoid is on the wrong side, and no point of the flank but the first is on the sphere about the apex. *)
Theorem C95_octoid_sphere_refuted ts rp alpha pia cone t : 0 < rp -> - PI < cone / 2 < PI -> tan (cone / 2) < 0 ->
  0 < alpha < PI / 2 -> 0 < t -> t * Rabs (sin (cone / 2)) < PI ->
  ~ on_cone_sphere rp (cone / 2) (c_fun (octoid_flank ts rp alpha pia cone) t).
Proof.
  intros R0 B T A T1 T2 H. assert (N : cone <> 0) by (intros ->; unfold Rdiv in T; rewrite Rmult_0_l, tan_0 in T; lra).
  set (g := cone / 2) in *. assert (S : sin g <> 0).
  { intros Z. unfold tan in T. rewrite Z in T. unfold Rdiv in T. rewrite Rmult_0_l in T. lra. }
  assert (C : cos g <> 0).
  { intros Z. unfold tan in T. rewrite Z in T. unfold Rdiv in T. rewrite Rinv_0, Rmult_0_r in T. lra. }
  destruct (apex_dist_facts rp g R0 S) as (L & P & E & Z). specialize (Z C).
  assert (NE : rp / tan g < 0).
  { replace (rp / tan g) with (- (rp / - tan g)) by (field; lra). assert (0 < rp / - tan g) by (apply Rdiv_lt_0_compat; lra). lra. }
  rewrite Rabs_left in Z by exact NE.
  assert (LT : rp < apex_dist rp g).
  { destruct (Rle_lt_or_eq_dec _ _ L) as [K|K]; [exact K|]. exfalso. rewrite <- K in Z.
    replace (rp * rp - rp * rp) with 0 in Z by ring. rewrite sqrt_0 in Z. lra. }
  unfold g in H. rewrite octoid_flank_fun in H by assumption. fold g in H.
  assert (AP : sin alpha <> 0) by (apply Rgt_not_eq, sin_gt_0; lra).
  pose proof (C27_sphere_distance t rp (apex_dist rp g) alpha (- pia) ORIGIN 0 P AP) as D.
  assert (U : 0 < vz (octoid t rp (apex_dist rp g) alpha (- pia) ORIGIN 0)).
  { apply octoid_up; [lra|exact A|exact T1|]. rewrite <- E at 1.
    replace (t * (apex_dist rp g * Rabs (sin g))) with (t * Rabs (sin g) * apex_dist rp g) by ring.
    apply Rmult_lt_compat_r; assumption. }
  unfold on_cone_sphere in H. rewrite Z in D.
  apply (f_equal (fun x => x * x)) in H. apply (f_equal (fun x => x * x)) in D. rewrite norm_sqr in H, D. rewrite <- D in H.
  generalize dependent (octoid t rp (apex_dist rp g) alpha (- pia) ORIGIN 0). intros [x y z] H D U.
  revert H U NE. unfold cone_apex, on_z. generalize (rp / tan g). clear. intros k. vec_simpl. intros H U NE.
  assert (Q : z * k = 0) by lra. assert (0 < z * - k) by (apply Rmult_lt_0_compat; lra).
  lra.
Qed.

(** ** Spherical involute *)
(** [t], [r] solve the radius equation of [involute_angle_func] (gearteeth.py 88-91): the spherical involute about the
    base circle [r] meets the pitch circle at [t], in the half of the sphere that contains the pole, without having gone
    more than half around. *)
Record base_solution (rp RR t r : R) : Prop := {
  bs_r : - RR <= r <= RR;
  bs_radius : vx (involute_sphere t r (1 / RR) 0 ORIGIN 0) * vx (involute_sphere t r (1 / RR) 0 ORIGIN 0) +
              vy (involute_sphere t r (1 / RR) 0 ORIGIN 0) * vy (involute_sphere t r (1 / RR) 0 ORIGIN 0) = rp * rp;
  bs_side : 0 <= vy (involute_sphere t r (1 / RR) 0 ORIGIN 0);
  bs_half : vz (involute_sphere t r (1 / RR) 0 ORIGIN 0) <= sqrt (RR * RR - r * r) }.

Lemma involute_sphere_rot t r C a z : C <> 0 ->
  involute_sphere t r C a ORIGIN z = vadd (mapp (rotz a) (involute_sphere t r C 0 ORIGIN 0)) (smul z OUT).
Proof.
  intros N. unfold involute_sphere. destruct (Req_EM_T C 0); [contradiction|]. cbv zeta.
  generalize (roty ((PI / 2 - asin (r / (1 / Rabs C))) * sign C)) (rotz (- (r / (1 / Rabs C) * t)))
    (vadd (mapp (roty (- (PI / 2) * sign C)) ORIGIN) (smul (1 / Rabs C) RIGHT)) (sign C) (sqrt (1 / Rabs C * (1 / Rabs C) - r * r)).
  clear. intros A B v s q. replace (t + a) with (a + (t + 0)) by ring. rewrite <- rotz_plus.
  generalize (rotz (t + 0)). intros D. rewrite !mapp_mmul. generalize (mapp D (mapp A (mapp B v))). intros [x y w]. vec_ring.
Qed.

Definition mirror_z (p : vec) : vec := V (vx p) (vy p) (- vz p).
Lemma involute_sphere_opp t r C a : C <> 0 -> involute_sphere t r (- C) a ORIGIN 0 = mirror_z (involute_sphere t r C a ORIGIN 0).
Proof.
  intros N. unfold involute_sphere. destruct (Req_EM_T C 0); [contradiction|]. destruct (Req_EM_T (- C) 0); [lra|]. cbv zeta.
  rewrite Rabs_Ropp. assert (S : sign (- C) = - sign C).
  { destruct (Rdichotomy _ _ N) as [H|H]; [rewrite (sign_neg C), sign_pos by lra|rewrite (sign_pos C), sign_neg by lra]; lra. }
  rewrite S. rewrite !mapp_ORIGIN.
  generalize (1 / Rabs C) (sign C). clear. intros q s. unfold mirror_z.
  replace ((PI / 2 - asin (r / q)) * - s) with (- ((PI / 2 - asin (r / q)) * s)) by ring.
  generalize ((PI / 2 - asin (r / q)) * s) (- (r / q * t)) (t + a) (sqrt (q * q - r * r)). intros b c d e.
  apply vec_eq; vec_simpl; rewrite ?cos_neg, ?sin_neg; ring.
Qed.

(** C95: the spherical involute flank passes through the pitch point, and all of it is on the sphere about the apex. *)
Theorem C95_involute_cone ts rp alpha pia cone : 0 < rp -> - PI < cone < PI -> cone <> 0 ->
  let RR := apex_dist rp (cone / 2) in
  base_solution rp RR (fst (ts_base ts rp alpha RR)) (snd (ts_base ts rp alpha RR)) ->
  exists conn f, cone_involute_tooth ts rp alpha pia cone = new_chain true (map Prim [conn; f]) /\
    c_fun f (fst (ts_base ts rp alpha RR)) = circle_pt rp (- pia) /\
    forall t, on_cone_sphere rp (cone / 2) (c_fun f t).
Proof.
  intros R0 B N RR BS. unfold cone_involute_tooth.
  change (Rabs (rp / sin (cone / 2))) with RR.
  destruct (ts_base ts rp alpha RR) as [t r]. cbn [fst snd] in BS |- *. destruct BS as [B1 B2 B3 B4].
  set (g := cone / 2) in *. assert (S : sin g <> 0) by (apply sin_ok; unfold g; lra).
  assert (BG : - PI / 2 < g < PI / 2) by (unfold g; lra). assert (G0 : g <> 0) by (unfold g; lra).
  pose proof (cos_ok g BG) as CG.
  destruct (apex_dist_facts rp g R0 S) as (L & P & E & Z). fold RR in L, P, E, Z. specialize (Z ltac:(lra)).
  set (c := cone_involute_curve RR g pia t r). set (f := set_end_on c _).
  eexists _, f. split; [reflexivity|].
  assert (F : forall u, c_fun f u = involute_sphere u r (1 / RR * sign g) (cone_involute_angle RR pia t r) ORIGIN (cone_involute_z RR g t r))
    by reflexivity.
  assert (IP : 0 < 1 / RR) by (apply Rdiv_lt_0_compat; lra).
  assert (SG : sign g = 1 \/ sign g = -1).
  { destruct (Rdichotomy _ _ G0); [right; apply sign_neg|left; apply sign_pos]; lra. }
  assert (C0 : 1 / RR * sign g <> 0) by (destruct SG as [-> | ->]; lra).
  assert (SS : sign (sin g) = sign g).
  { destruct (Rdichotomy _ _ G0) as [H|H].
    - rewrite !sign_neg; [reflexivity|exact H|apply sin_lt_0_var; lra].
    - rewrite !sign_pos; [reflexivity|lra|apply sin_gt_0; lra]. }
  assert (SC : sign (1 / RR * sign g) = sign g).
  { destruct SG as [-> | ->]; [apply sign_pos|apply sign_neg]; lra. }
  assert (AC : 1 / Rabs (1 / RR * sign g) = RR).
  { rewrite Rabs_mult, (Rabs_right (1 / RR)) by lra. assert (Rabs (sign g) = 1) as ->.
    { destruct SG as [-> | ->]; [apply Rabs_R1|rewrite Rabs_left; lra]. } field. lra. }
  set (p := involute_sphere t r (1 / RR) 0 ORIGIN 0) in *.
  assert (D : dot (vsub p (on_z (sqrt (RR * RR - r * r)))) (vsub p (on_z (sqrt (RR * RR - r * r)))) = RR * RR).
  { rewrite <- norm_sqr. pose proof (C24_sphere_distance t r (1 / RR) 0 0 ltac:(lra)) as D.
    rewrite (Rabs_right (1 / RR)), (sign_pos (1 / RR)) in D by lra. replace (1 / (1 / RR)) with RR in D by (field; lra).
    fold p in D. rewrite Rmult_1_l, Rplus_0_r in D. rewrite D. reflexivity. }
  assert (V0 : sqrt (RR * RR - r * r) - vz p = Rabs (rp / tan g)).
  { rewrite <- Z. symmetry. apply sqrt_lem_1; [|lra|].
    - assert (0 <= (RR - rp) * (RR + rp)) by (apply Rmult_le_pos; lra). lra.
    - revert D B2. generalize (sqrt (RR * RR - r * r)). clearbody p. clear. destruct p as [x y z]. unfold on_z. intros q. vec_simpl. intros D B. lra. }
  split.
  - rewrite F, involute_sphere_rot by exact C0.
    assert (Q : involute_sphere t r (1 / RR * sign g) 0 ORIGIN 0 = V (vx p) (vy p) (sign g * vz p)).
    { destruct SG as [-> | ->].
      - rewrite Rmult_1_r, Rmult_1_l. fold p. clearbody p. destruct p; reflexivity.
      - replace (1 / RR * -1) with (- (1 / RR)) by ring. rewrite involute_sphere_opp by lra. fold p. unfold mirror_z. f_equal. ring. }
    rewrite Q. unfold cone_involute_z, cone_involute_angle. fold p.
    assert (AB : angle_between (V (vx p) (vy p) 0) RIGHT = arctan2 (vy p) (vx p)).
    { unfold angle_between. f_equal.
      - apply norm_eq; [exact B3|]. clearbody p. clear. destruct p as [x y z]. vec_ring.
      - clearbody p. clear. destruct p as [x y z]. vec_ring. }
    rewrite AB. destruct (arctan2_cos_sin (vy p) (vx p)) as (C1 & C2). rewrite B2, sqrt_square in C1, C2 by lra.
    set (th := arctan2 (vy p) (vx p)) in *. clearbody th p. clear - C1 C2 SG. destruct p as [x y z]. cbn [vx vy vz] in *.
    subst x y. unfold circle_pt. pose proof (sc1 th) as T. replace (- (pia + th)) with (- pia - th) by ring.
    apply vec_eq; vec_simpl; rewrite ?cos_minus, ?sin_minus, ?cos_neg, ?sin_neg; [| |ring];
    generalize dependent (sin th); generalize (cos th) (sin pia) (cos pia); clear; intros; nsatz.
  - intros u. rewrite F. unfold on_cone_sphere. fold RR.
    pose proof (C24_sphere_distance u r (1 / RR * sign g) (cone_involute_angle RR pia t r) (cone_involute_z RR g t r) C0) as K.
    rewrite AC, SC in K. refine (eq_trans _ K). do 2 f_equal. unfold cone_apex, on_z, cone_involute_z. fold p.
    rewrite (rp_tan rp g R0 BG G0), SS, <- V0. clearbody p. clear. vec_ring.
Qed.

(** ** Cycloid *)
Lemma cycloid_fun_facts rp g rc angle : 0 < rp -> - PI / 2 < g < PI / 2 -> g <> 0 -> rc <> 0 -> - rp <= rc <= rp ->
  let f := cone_cycloid_fun rp rc (1 / (rp / sin g)) angle in
  f 0 = circle_pt rp angle /\ forall t, on_cone_sphere rp g (f t).
Proof.
  intros R0 BG G0 RC B f. assert (S : sin g <> 0) by (apply sin_ok; lra). pose proof (cos_ok g BG) as CG.
  destruct (apex_dist_facts rp g R0 S) as (L & P & E & Z). specialize (Z ltac:(lra)).
  assert (CE : 1 / (rp / sin g) = sin g / rp) by (field; split; lra).
  assert (C0 : 1 / (rp / sin g) <> 0).
  { rewrite CE. intros Q. apply S. replace (sin g) with (sin g / rp * rp) by (field; lra). rewrite Q. ring. }
  assert (AC : 1 / Rabs (1 / (rp / sin g)) = apex_dist rp g).
  { unfold apex_dist. assert (rp / sin g <> 0) by (intros Q; unfold apex_dist in P; rewrite Q, Rabs_R0 in P; lra).
    unfold Rdiv at 2. rewrite Rmult_1_l, Rabs_inv. field. apply Rabs_no_R0. assumption. }
  assert (SC : sign (1 / (rp / sin g)) = sign (sin g)).
  { rewrite CE. destruct (Rdichotomy _ _ S) as [H|H].
    - rewrite !sign_neg; [reflexivity|exact H|]. replace (sin g / rp) with (- (- sin g / rp)) by (field; lra).
      assert (0 < - sin g / rp) by (apply Rdiv_lt_0_compat; lra). lra.
    - rewrite !sign_pos; [reflexivity|lra|apply Rdiv_lt_0_compat; lra]. }
  split.
  - unfold f, cone_cycloid_fun. destruct (C26_start rp rc (1 / (rp / sin g)) angle C0) as (p & Q & ->). rewrite Q. reflexivity.
  - intros t. unfold f, cone_cycloid_fun.
    destruct (C26_sphere_distance t rp rc (1 / (rp / sin g)) angle 0 C0 RC) as (p & -> & K); [rewrite AC; lra|rewrite AC; lra|].
    unfold on_cone_sphere. rewrite AC, SC in K. refine (eq_trans _ K). do 2 f_equal.
    unfold cone_apex, on_z. rewrite Z, Rplus_0_r, <- rp_tan by assumption. clear. vec_ring.
Qed.

(** C95: the bevel cycloid tooth is made of two joined pieces that meet at the pitch point; all of it is on the sphere about
    the apex. *)
Theorem C95_cycloid_tooth ts rp rin rout pia cone : 0 < rp -> - PI < cone < PI -> cone <> 0 ->
  0 < rin <= 1 -> 0 < rout <= 1 ->
  exists m lower upper, cycloid_tooth_curve ts rp rin rout pia cone = Ok m /\ leaves m = [lower; upper] /\
    c_eval lower 1 = circle_pt rp (- pia) /\ c_eval upper 0 = circle_pt rp (- pia) /\
    forall s, on_cone_sphere rp (cone / 2) (c_eval lower s) /\ on_cone_sphere rp (cone / 2) (c_eval upper s).
Proof.
  intros R0 B N I O. unfold cycloid_tooth_curve. destruct (Req_EM_T cone 0); [contradiction|].
  unfold nearest_point. cbn [map bind]. set (s0 := snd (min_by _ _)).
  set (lower := cone_cyc_lower rp rin pia cone). set (up := cone_cyc_upper rp rout pia cone).
  set (upper := set_end_on up _).
  assert (FL : fresh lower) by apply new_fresh. assert (FU : fresh upper) by apply set_end_fresh.
  exists (new_chain true [Prim lower; Prim upper]), lower, upper. split; [reflexivity|].
  assert (BG : - PI / 2 < cone / 2 < PI / 2) by lra. assert (G0 : cone / 2 <> 0) by lra.
  assert (B1 : - rin * rp <> 0 /\ - rp <= - rin * rp <= rp /\ rout * rp <> 0 /\ - rp <= rout * rp <= rp).
  { assert (0 < rin * rp) by (apply Rmult_lt_0_compat; lra). assert (0 < rout * rp) by (apply Rmult_lt_0_compat; lra).
    assert (0 <= (1 - rin) * rp) by (apply Rmult_le_pos; lra). assert (0 <= (1 - rout) * rp) by (apply Rmult_le_pos; lra).
    repeat split; lra. }
  destruct B1 as (N1 & M1 & N2 & M2).
  destruct (cycloid_fun_facts rp (cone / 2) (- rin * rp) (- pia) R0 BG G0 N1 M1) as (L0 & LS).
  destruct (cycloid_fun_facts rp (cone / 2) (rout * rp) (- pia) R0 BG G0 N2 M2) as (U0 & US).
  split; [|split; [|split]].
  - unfold new_chain. rewrite update_id; [reflexivity|reflexivity|]. constructor; [exact FL|constructor; [exact FU|constructor]].
  - rewrite (fresh_end lower FL) by apply NDIV_2. exact L0.
  - rewrite (fresh_start upper FU) by apply NDIV_2. exact U0.
  - intros s. split; [apply LS|apply US].
Qed.

Example C95_example ts : exists m lower upper, cycloid_tooth_curve ts 10 (1 / 4) (1 / 4) (1 / 10) (PI / 2) = Ok m /\
  leaves m = [lower; upper] /\ c_eval lower 1 = circle_pt 10 (- (1 / 10)) /\ c_eval upper 0 = circle_pt 10 (- (1 / 10)) /\
  forall s, on_cone_sphere 10 (PI / 2 / 2) (c_eval lower s) /\ on_cone_sphere 10 (PI / 2 / 2) (c_eval upper s).
Proof. pose proof PI_RGT_0. apply C95_cycloid_tooth; lra. Qed.

Lemma min_by_best l : forall best, let m := min_by best l in In m (best :: l) /\ forall x, In x (best :: l) -> fst m <= fst x.
Proof.
  induction l as [|y r IH]; intros best; cbn zeta; cbn [min_by].
  - split; [left; reflexivity|]. intros x [<-|[]]. lra.
  - destruct (Rlt_dec (fst y) (fst best)) as [L|L].
    + destruct (IH y) as (I & M). split; [right; exact I|]. intros x [<-|K].
      * specialize (M y (or_introl eq_refl)). lra.
      * apply M. exact K.
    + destruct (IH best) as (I & M). split.
      * destruct I as [I|I]; [left; exact I|right; right; exact I].
      * intros x [<-|[<-|K]]; [apply M; left; reflexivity| |apply M; right; exact K].
        specialize (M best (or_introl eq_refl)). lra.
Qed.

(** The search for the top of the tooth takes the best of its attempts: no other attempt ended nearer. *)
Theorem C95_nearest ts c p guesses s : nearest_point ts c p guesses = Ok s ->
  let attempt := ts_min ts (fun t => dot (vsub (c_eval c t) p) (vsub (c_eval c t) p)) in
  exists g, In g guesses /\ s = snd (attempt g) /\ forall g', In g' guesses -> fst (attempt g) <= fst (attempt g').
Proof.
  intros H. cbn zeta. unfold nearest_point in H. set (attempt := ts_min ts _) in *. destruct guesses as [|g r]; [discriminate|]. cbn [map] in H.
  apply Ok_inj in H. destruct (min_by_best (map attempt r) (attempt g)) as (I & M). cbn zeta in I, M.
  change (attempt g :: map attempt r) with (map attempt (g :: r)) in I, M.
  apply in_map_iff in I. destruct I as (h & E & I). exists h. split; [exact I|]. rewrite E. split; [symmetry; exact H|].
  intros g' K. apply M. apply in_map. exact K.
Qed.
Example C95_nearest_example ts c p : exists s, nearest_point ts c p [0; 1 / 2; 1] = Ok s /\
  let attempt := ts_min ts (fun t => dot (vsub (c_eval c t) p) (vsub (c_eval c t) p)) in
  exists g, In g [0; 1 / 2; 1] /\ s = snd (attempt g) /\ forall g', In g' [0; 1 / 2; 1] -> fst (attempt g) <= fst (attempt g').
Proof. eexists. split; [reflexivity|]. apply C95_nearest. reflexivity. Qed.
