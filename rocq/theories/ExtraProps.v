(** C108: numerical derivatives and Hermite fits.  C109: the arc functions. *)
From Coq Require Import Reals Lra Lia Psatz List ZArith Bool.
From Coquelicot Require Import Coquelicot.
From Verif Require Import Num Vec Transform TransformProps Coords CoordsProps Bezier BezierLem BezierProps Interp Curve CurveLem
  CurveProps ArcLem ArcProps GearMath Extra.
Import ListNotations.
Open Scope R_scope.

(** ** C108 *)

(** Only first derivatives exist: every order above one raises. *)
Theorem C108_second_derivative_refuted c s direction n delta :
  (derivative_n c s direction n delta = Err TypeError <-> (2 <= n)%Z) /\
  ((n <= 1)%Z -> 0 < direction -> derivative_n c s direction n delta =
     Ok (smul (/ delta) (vsub (c_eval c (s + delta)) (c_eval c s)))).
Proof.
  unfold derivative_n. destruct (Z.leb_spec n 1) as [L|L].
  - split; [split; [discriminate|lia]|]. intros _ D. unfold c_derivative.
    destruct (Req_EM_T direction 0) as [E|_]; [lra|]. destruct (Rlt_dec 0 direction); [reflexivity|lra].
  - split; [split; [intros _; lia|reflexivity]|lia].
Qed.
Example C108_second_derivative_example : derivative_n (line_curve ORIGIN RIGHT true) (1 / 2) 0 2 (/ 1000000) = Err TypeError.
Proof. apply C108_second_derivative_refuted. lia. Qed.

Lemma bezier4 t (a b c d : vec) : bezier t [a; b; c; d] =
  vadd (smul ((1 - t) * (1 - t) * (1 - t)) a) (vadd (smul (3 * t * (1 - t) * (1 - t)) b)
    (vadd (smul (3 * t * t * (1 - t)) c) (smul (t * t * t) d))).
Proof.
  unfold bezier. cbn [length seq fold_left nth Nat.sub binom]. cbn [INR ladd lsc lz Lin_vec].
  destruct a, b, c, d. apply vec_eq; vec_simpl; simpl; ring.
Qed.
Lemma bezier3 t (a b c : vec) : bezier t [a; b; c] =
  vadd (smul ((1 - t) * (1 - t)) a) (vadd (smul (2 * t * (1 - t)) b) (smul (t * t) c)).
Proof.
  unfold bezier. cbn [length seq fold_left nth Nat.sub binom]. cbn [INR ladd lsc lz Lin_vec].
  destruct a, b, c. apply vec_eq; vec_simpl; simpl; ring.
Qed.

(** The velocity of a curve in space. Specification only, no code. *)
Definition has_velocity (f : R -> vec) (t : R) (v : vec) : Prop :=
  derivable_pt_lim (fun u => vx (f u)) t (vx v) /\ derivable_pt_lim (fun u => vy (f u)) t (vy v) /\
  derivable_pt_lim (fun u => vz (f u)) t (vz v).

Lemma cubic_velocity f a b c d t : (forall u, f u = bezier u [a; b; c; d]) ->
  has_velocity f t (vadd (smul (3 * (1 - t) * (1 - t)) (vsub b a)) (vadd (smul (6 * t * (1 - t)) (vsub c b)) (smul (3 * t * t) (vsub d c)))).
Proof.
  intros E. destruct a as [a1 a2 a3], b as [b1 b2 b3], c as [c1 c2 c3], d as [d1 d2 d3].
  assert (K : forall (g : R -> R) a b c d, (forall u, g u = (1 - u) * (1 - u) * (1 - u) * a + (3 * u * (1 - u) * (1 - u) * b + (3 * u * u * (1 - u) * c + u * u * u * d))) ->
    derivable_pt_lim g t (3 * (1 - t) * (1 - t) * (b - a) + (6 * t * (1 - t) * (c - b) + 3 * t * t * (d - c)))).
  { clear. intros g a b c d G. apply is_derive_Reals.
    apply (is_derive_ext (fun u => (1 - u) * (1 - u) * (1 - u) * a + (3 * u * (1 - u) * (1 - u) * b + (3 * u * u * (1 - u) * c + u * u * u * d))));
      [intros u; symmetry; apply G|].
    auto_derive; [exact I|]. ring. }
  repeat split; cbn [vx vy vz vadd smul vsub]; apply K; intros u; rewrite E, bezier4; reflexivity.
Qed.

(** The fitted cubic starts and ends where the curve does; its end velocities are the difference quotients with step
    1e-4 inside the curve. *)
Theorem C108_cubic c : let f := fun t => bezier t (fit_hermite_cubic c) in
  f 0 = c_eval c 0 /\ f 1 = c_eval c 1 /\
  has_velocity f 0 (smul 10000 (vsub (c_eval c (1 / 10000)) (c_eval c 0))) /\
  has_velocity f 1 (smul 10000 (vsub (c_eval c 1) (c_eval c (1 - 1 / 10000)))).
Proof.
  intros f. unfold f, fit_hermite_cubic, c_derivative.
  destruct (Req_EM_T 1 0) as [E|_]; [lra|]. destruct (Req_EM_T (-1) 0) as [E|_]; [lra|].
  destruct (Rlt_dec 0 1) as [_|N]; [|lra]. destruct (Rlt_dec 0 (-1)) as [N|_]; [lra|].
  replace (0 + / 10000) with (1 / 10000) by lra. replace (1 - / 10000) with (1 - 1 / 10000) by lra.
  set (p0 := c_eval c 0). set (p1 := c_eval c 1). set (q0 := c_eval c (1 / 10000)). set (q1 := c_eval c (1 - 1 / 10000)).
  clearbody p0 p1 q0 q1. split; [|split; [|split]].
  - rewrite bezier4. destruct p0, p1, q0, q1. vec_ring.
  - rewrite bezier4. destruct p0, p1, q0, q1. vec_ring.
  - pose proof (cubic_velocity (fun t => bezier t [p0; vadd p0 (smul (/ 3) (smul (/ / 10000) (vsub q0 p0)));
      vsub p1 (smul (/ 3) (smul (/ / 10000) (vsub p1 q1))); p1]) _ _ _ _ 0 (fun u => eq_refl)) as V.
    match type of V with has_velocity _ _ ?v => replace v with (smul 10000 (vsub q0 p0)) in V; [exact V|] end.
    destruct p0, p1, q0, q1. apply vec_eq; vec_simpl; field.
  - pose proof (cubic_velocity (fun t => bezier t [p0; vadd p0 (smul (/ 3) (smul (/ / 10000) (vsub q0 p0)));
      vsub p1 (smul (/ 3) (smul (/ / 10000) (vsub p1 q1))); p1]) _ _ _ _ 1 (fun u => eq_refl)) as V.
    match type of V with has_velocity _ _ ?v => replace v with (smul 10000 (vsub p1 q1)) in V; [exact V|] end.
    destruct p0, p1, q0, q1. apply vec_eq; vec_simpl; field.
Qed.

(** What the fit of a cubic polynomial differs from it by; [e] is the step 1e-4. *)
Theorem C108_cubic_error c a b q d : (forall s, c_eval c s = vadd a (vadd (smul s b) (vadd (smul (s * s) q) (smul (s * s * s) d)))) ->
  let e := 1 / 10000 in
  forall t, bezier t (fit_hermite_cubic c) = vadd (c_eval c t)
    (vadd (smul (t * (1 - t) * (1 - t)) (vadd (smul e q) (smul (e * e) d)))
      (smul (t * t * (1 - t)) (vsub (smul e (vadd q (smul 3 d))) (smul (e * e) d)))).
Proof.
  intros H e t. unfold fit_hermite_cubic, c_derivative.
  destruct (Req_EM_T 1 0) as [E|_]; [lra|]. destruct (Req_EM_T (-1) 0) as [E|_]; [lra|].
  destruct (Rlt_dec 0 1) as [_|N]; [|lra]. destruct (Rlt_dec 0 (-1)) as [N|_]; [lra|].
  rewrite bezier4, !H. unfold e. clear. destruct a, b, q, d. apply vec_eq; vec_simpl; field.
Qed.

(** Straight lines are reproduced exactly, parabolas are not. *)
Theorem C108_line c p q : (forall s, c_eval c s = vadd p (smul s (vsub q p))) ->
  forall t, bezier t (fit_hermite_cubic c) = c_eval c t.
Proof.
  intros H t. pose proof (C108_cubic_error c p (vsub q p) ORIGIN ORIGIN) as K. cbv zeta in K. rewrite K.
  - destruct (c_eval c t). vec_ring.
  - intros s. rewrite H. destruct p, q. vec_ring.
Qed.
Theorem C108_parabola_refuted c a b q : (forall s, c_eval c s = vadd a (vadd (smul s b) (smul (s * s) q))) -> q <> ORIGIN ->
  bezier (1 / 2) (fit_hermite_cubic c) <> c_eval c (1 / 2).
Proof.
  intros H NQ E. pose proof (C108_cubic_error c a b q ORIGIN) as K. cbv zeta in K. rewrite K in E.
  - apply NQ. destruct q as [x y z], (c_eval c (1 / 2)) as [u v w]. vec_simpl. injection E as E1 E2 E3. f_equal; lra.
  - intros s. rewrite H. destruct a, b, q. vec_ring.
Qed.

(** The quadratic fit: right end points for every answer of the solver; with an exact answer the middle point lies on
    the tangents at both ends, so that the fit is tangent to the difference quotients. *)
Theorem C108_quadratic x c : let f := fun t => bezier t (fit_hermite_quadratic x c) in
  let v0 := smul 10000 (vsub (c_eval c (1 / 10000)) (c_eval c 0)) in
  let v1 := smul 10000 (vsub (c_eval c 1) (c_eval c (1 - 1 / 10000))) in
  f 0 = c_eval c 0 /\ f 1 = c_eval c 1 /\
  has_velocity f 0 (smul (2 / 3 * fst x) v0) /\
  (quadratic_target c x = ORIGIN -> has_velocity f 1 (smul (- (2 / 3) * snd x) v1)).
Proof.
  intros f v0 v1. unfold f, fit_hermite_quadratic, quadratic_target, c_derivative.
  destruct (Req_EM_T 1 0) as [E|_]; [lra|]. destruct (Req_EM_T (-1) 0) as [E|_]; [lra|].
  destruct (Rlt_dec 0 1) as [_|N]; [|lra]. destruct (Rlt_dec 0 (-1)) as [N|_]; [lra|].
  replace (0 + / 10000) with (1 / 10000) by lra. replace (1 - / 10000) with (1 - 1 / 10000) by lra.
  unfold v0, v1. clear f v0 v1.
  set (p0 := c_eval c 0). set (p1 := c_eval c 1). set (q0 := c_eval c (1 / 10000)). set (q1 := c_eval c (1 - 1 / 10000)).
  clearbody p0 p1 q0 q1. destruct x as [x0 x1]. cbn [fst snd].
  assert (K : forall t (b : vec), has_velocity (fun u => bezier u [p0; b; p1]) t (vadd (smul (2 * (1 - t)) (vsub b p0)) (smul (2 * t) (vsub p1 b)))).
  { clear. intros t b. destruct p0 as [a1 a2 a3], b as [b1 b2 b3], p1 as [c1 c2 c3].
    assert (K : forall (g : R -> R) a b c, (forall u, g u = (1 - u) * (1 - u) * a + (2 * u * (1 - u) * b + u * u * c)) ->
      derivable_pt_lim g t (2 * (1 - t) * (b - a) + 2 * t * (c - b))).
    { clear. intros g a b c G. apply is_derive_Reals.
      apply (is_derive_ext (fun u => (1 - u) * (1 - u) * a + (2 * u * (1 - u) * b + u * u * c))); [intros u; symmetry; apply G|].
      auto_derive; [exact I|]. ring. }
    repeat split; cbn [vx vy vz vadd smul vsub]; apply K; intros u; rewrite bezier3; reflexivity. }
  split; [|split; [|split]].
  - rewrite bezier3. destruct p0, p1, q0, q1. vec_ring.
  - rewrite bezier3. destruct p0, p1, q0, q1. vec_ring.
  - match goal with |- has_velocity (fun t => bezier t [_; ?b; _]) _ _ => pose proof (K 0 b) as V end.
    match type of V with has_velocity _ _ ?v => replace v with (smul (2 / 3 * x0) (smul 10000 (vsub q0 p0))) in V; [exact V|] end.
    destruct p0, p1, q0, q1. apply vec_eq; vec_simpl; field.
  - intros Z. match goal with |- has_velocity (fun t => bezier t [_; ?b; _]) _ _ => pose proof (K 1 b) as V end.
    match type of V with has_velocity _ _ ?v => replace v with (smul (- (2 / 3) * x1) (smul 10000 (vsub p1 q1))) in V; [exact V|] end.
    destruct p0 as [a1 a2 a3], p1 as [b1 b2 b3], q0 as [c1 c2 c3], q1 as [d1 d2 d3].
    unfold vadd, vsub, smul in Z. cbn [vx vy vz] in Z. injection Z as Z1 Z2 Z3.
    apply vec_eq; cbn [vx vy vz vadd smul vsub]; lra.
Qed.

(** ** C109 *)

Lemma turn_plane z a b r s : dot z z = 1 -> dot z a = 0 -> 
  vadd b (mapp (from_rotvec (smul r (smul s z))) a) = vadd (vadd (smul (cos (r * s)) a) (smul (sin (r * s)) (cross z a))) b.
Proof.
  intros Z A. rewrite smul_smul, from_rotvec_axis by (apply norm_eq; lra). rewrite mapp_rodrigues, A.
  clear. generalize (cos (r * s)), (sin (r * s)). intros p q. destruct z, a, b. vec_ring.
Qed.

(** About a given centre: the function and the curve class agree at every parameter and for every number of turns; for
    points in line with the centre the function gives no point. *)
Theorem C109_center t p0 p1 ce rev act :
  (cross (vsub p0 ce) (vsub p1 ce) <> ORIGIN ->
    arc_from_2_point_center t p0 p1 ce rev = Ok (c_eval (from_2_point_center p0 p1 ce rev act) t)) /\
  (cross (vsub p0 ce) (vsub p1 ce) = ORIGIN -> arc_from_2_point_center t p0 p1 ce rev = Err ZeroDivisionError).
Proof.
  unfold arc_from_2_point_center, from_2_point_center, normalize_r.
  set (a := vsub p0 ce). set (b := vsub p1 ce). clearbody a b. split.
  - intros H. pose proof (norm_pos _ H) as NP. destruct (cross_nz a b H) as [Ha Hb].
    destruct (Req_EM_T (norm (cross a b)) 0) as [E|_]; [lra|]. cbn [bind]. f_equal.
    rewrite arc_frame_eval by (apply two_point_frame; exact H).
    rewrite turn_plane.
    + f_equal. unfold angle_between. rewrite (dot_comm b a).
      generalize (arctan2 (norm (cross a b)) (dot a b) + rev * PI * 2). intros g.
      generalize (cos (g * t)), (sin (g * t)), (normalize (cross a b)). intros p q z.
      transitivity (vadd (smul p (smul (norm a) (normalize a))) (smul q (cross z (smul (norm a) (normalize a)))));
        [rewrite <- (normalize_eq a Ha); reflexivity|].
      generalize (norm a), (normalize a). clear. vec_ring.
    + apply normalize_dot, H.
    + rewrite dot_comm. unfold normalize. rewrite dot_smul_r, dot_cross_l. ring.
  - intros H. rewrite H. destruct (Req_EM_T (norm ORIGIN) 0) as [_|N]; [reflexivity|]. exfalso. apply N, norm_ORIGIN.
Qed.

Lemma arc_from_2_point_eq t p0 p1 kappa axis rev : p0 <> p1 -> cross (vsub p1 p0) axis <> ORIGIN -> kappa <> 0 ->
  let ce := curvature_center p0 p1 kappa axis in
  let d := norm (vsub p1 p0) in
  let ph := angle_between (vsub p0 ce) (vsub p1 ce) + rev * PI * 2 in
  exists u w h, vsub p1 p0 = smul d u /\ dot u u = 1 /\ dot w w = 1 /\ dot u w = 0 /\ 0 < dot w axis /\ 0 < d /\
    ce = vsub (smul (/ 2) (vadd p0 p1)) (smul h (cross u w)) /\
    (d / 2 < / Rabs kappa -> 0 < kappa * h) /\ (/ Rabs kappa <= d / 2 -> h = 0) /\
    arc_from_2_point t p0 p1 kappa axis rev =
      Ok (vadd (vadd (smul (cos (ph * t)) (vsub p0 ce)) (smul (sin (ph * t)) (cross w (vsub p0 ce)))) ce).
Proof.
  intros NE HC K0 ce d ph.
  assert (D : vsub p1 p0 <> ORIGIN).
  { intros E. apply NE. rewrite <- (vadd_vsub p1 p0), E, vadd_0_l. reflexivity. }
  set (u := normalize (vsub p1 p0)). set (q := vsub axis (smul (dot axis u) u)).
  assert (U : dot u u = 1) by (apply normalize_dot, D).
  assert (UQ : dot u q = 0) by (unfold q; rewrite dot_comm, dot_vsub_l, dot_smul_l, U; ring).
  assert (Q : q <> ORIGIN).
  { intros E. apply HC. rewrite (normalize_eq _ D). fold u.
    replace axis with (vadd q (smul (dot axis u) u)) by (unfold q; vec_ring).
    rewrite E. generalize (norm (vsub p1 p0)), (dot axis u). clear. clearbody u. vec_ring. }
  set (r := if Rlt_dec (Rabs (/ kappa)) (d / 2) then d / 2 * sign (/ kappa) else / kappa).
  set (h := sqrt (r * r - d / 2 * (d / 2)) * sign r).
  assert (CE : ce = vsub (smul (/ 2) (vadd p0 p1)) (smul h (cross u (normalize q)))).
  { unfold ce, curvature_center. destruct (vec_eq_dec (vsub p1 p0) ORIGIN); [contradiction|]. reflexivity. }
  assert (DP : 0 < d) by apply norm_pos, D.
  assert (W : dot (normalize q) (normalize q) = 1) by apply normalize_dot, Q.
  assert (UW : dot u (normalize q) = 0) by (unfold normalize; rewrite dot_smul_r, UQ; ring).
  assert (E : vsub p1 p0 = smul d u) by apply normalize_eq, D.
  exists u, (normalize q), h. repeat (split; [assumption|]). split; [|split; [exact DP|split; [exact CE|split; [|split]]]].
  - replace axis with (vadd q (smul (dot axis u) u)) at 1 by (unfold q; vec_ring).
    rewrite dot_comm, dot_vadd_l, dot_smul_l. unfold normalize. rewrite !dot_smul_r, UQ.
    pose proof (norm_pos q Q). rewrite <- norm_sqr.
    replace (/ norm q * (norm q * norm q) + dot axis u * (/ norm q * 0)) with (norm q) by (field; lra). assumption.
  - intros L. pose proof (Rabs_pos_lt kappa K0) as AK. unfold h, r. clear h CE r ce ph.
    rewrite (Rabs_inv kappa). destruct (Rlt_dec (/ Rabs kappa) (d / 2)) as [L'|_]; [lra|].
    assert (KK : / kappa * / kappa = / Rabs kappa * / Rabs kappa).
    { rewrite <- !Rinv_mult. f_equal. rewrite <- Rabs_mult, Rabs_right; [reflexivity|nra]. }
    assert (P : 0 < / kappa * / kappa - d / 2 * (d / 2)) by (rewrite KK; nra).
    assert (SK : 0 < kappa * sign (/ kappa)).
    { destruct (Rlt_dec 0 kappa).
      - rewrite sign_pos by (apply Rinv_0_lt_compat; assumption). lra.
      - rewrite sign_neg by (apply Rinv_lt_0_compat; lra). lra. }
    pose proof (sqrt_lt_R0 _ P). replace (kappa * _) with
      (sqrt (/ kappa * / kappa - d / 2 * (d / 2)) * (kappa * sign (/ kappa))) by ring. nra.
  - intros L. assert (RR : r * r - d / 2 * (d / 2) = 0).
    { unfold r. rewrite (Rabs_inv kappa). clear h CE r ce ph. destruct (Rlt_dec (/ Rabs kappa) (d / 2)).
      - transitivity (d / 2 * (d / 2) * (sign (/ kappa) * sign (/ kappa) - 1)); [ring|].
        rewrite sign_sqr by (apply Rinv_neq_0_compat; exact K0). ring.
      - replace (d / 2) with (/ Rabs kappa) by lra.
        rewrite <- !Rinv_mult, <- Rabs_mult, (Rabs_right (kappa * kappa)) by nra. ring. }
    unfold h. rewrite RR, sqrt_0. ring.
  - unfold arc_from_2_point. destruct (Req_EM_T kappa 0); [contradiction|].
    destruct (vec_eq_dec (vsub p1 p0) ORIGIN); [contradiction|]. fold u. fold q. unfold normalize_r.
    destruct (Req_EM_T (norm q) 0) as [Z|_]; [pose proof (norm_pos q Q); lra|]. cbn [bind]. f_equal.
    fold d. fold r. fold h. rewrite <- CE. rewrite (dot_comm (vsub p1 ce)).
    change (arctan2 (norm (cross (vsub p0 ce) (vsub p1 ce))) (dot (vsub p0 ce) (vsub p1 ce))) with
      (angle_between (vsub p0 ce) (vsub p1 ce)). fold ph. apply turn_plane; [exact W|].
    replace (vsub p0 ce) with (vadd (smul (- / 2) (vsub p1 p0)) (smul h (cross u (normalize q)))).
    + rewrite E. clear - UW. clearbody u. set (w := normalize q) in *. clearbody w.
      transitivity (- / 2 * d * dot u w); [destruct u, w; vec_simpl; ring|rewrite UW; ring].
    + rewrite CE. clear. clearbody u h. generalize (normalize q). intros w. destruct p0, p1, u, w. apply vec_eq; vec_simpl; field.
Qed.

Lemma arc_ends p0 p1 u w d h (n : Z) act : vsub p1 p0 = smul d u -> dot u u = 1 -> dot w w = 1 -> dot u w = 0 ->
  0 < d -> h <> 0 ->
  let ce := vsub (smul (/ 2) (vadd p0 p1)) (smul h (cross u w)) in
  cross (vsub p0 ce) (vsub p1 ce) <> ORIGIN /\ normalize (cross (vsub p0 ce) (vsub p1 ce)) = smul (sign h) w /\
  c_eval (from_2_point_center p0 p1 ce (IZR n) act) 0 = p0 /\ c_eval (from_2_point_center p0 p1 ce (IZR n) act) 1 = p1.
Proof.
  intros E U W UW DP H0 ce.
  destruct (arc_center_algebra p0 p1 u w d h E U W UW) as (A0 & A1 & AX). fold ce in A0, A1, AX.
  assert (X : cross (vsub p0 ce) (vsub p1 ce) <> ORIGIN).
  { rewrite AX. intros Z. apply (f_equal (fun v => dot v w)) in Z. rewrite dot_smul_l, W in Z.
    replace (dot ORIGIN w) with 0 in Z by vec_ring. assert (d * h <> 0) by (apply Rmult_integral_contrapositive; lra). lra. }
  split; [exact X|]. split.
  - rewrite AX. unfold normalize. rewrite smul_smul, norm_smul, (norm_eq w 1) by lra. f_equal.
    rewrite Rabs_mult, (Rabs_right d) by lra. unfold sign. clear - DP H0. destruct (Rlt_dec h 0).
    + rewrite Rabs_left by lra. field. lra.
    + destruct (Rlt_dec 0 h); [|lra]. rewrite Rabs_right by lra. field. lra.
  - apply C33_two_point_center; [|exact X].
    unfold norm. apply (f_equal sqrt). rewrite A0, A1. reflexivity.
Qed.

(** By curvature, radius above half the chord. A positive curvature gives the arc of the curve class, from the first to
    the second point; a negative one runs the class's arc backwards from the first point, and never reaches the second. *)
Theorem C109_curvature t p0 p1 kappa axis rev act : p0 <> p1 -> cross (vsub p1 p0) axis <> ORIGIN -> kappa <> 0 ->
  norm (vsub p1 p0) / 2 < / Rabs kappa ->
  let c := from_2_point_curvature p0 p1 kappa axis rev act in
  arc_from_2_point t p0 p1 kappa axis rev = Ok (c_eval c (if Rlt_dec 0 kappa then t else - t)).
Proof.
  intros NE HC K0 L c. destruct (arc_from_2_point_eq t p0 p1 kappa axis rev NE HC K0) as (u & w & h & E & U & W & UW & WA & DP & CE & HH & _ & EQ).
  rewrite EQ. clear EQ. unfold c, from_2_point_curvature. specialize (HH L).
  assert (H0 : h <> 0) by (intros ->; lra).
  pose proof (arc_ends p0 p1 u w _ h 0 act E U W UW DP H0) as AE. cbv zeta in AE. rewrite <- CE in AE.
  destruct AE as (X & AX & _). destruct (cross_nz _ _ X) as [Ha Hb].
  unfold from_2_point_center. rewrite arc_frame_eval by (apply two_point_frame; exact X). rewrite AX.
  set (ph := angle_between _ _ + _). set (a := vsub p0 _) in *. clearbody ph.
  f_equal. f_equal.
  assert (S : sign h = if Rlt_dec 0 kappa then 1 else -1).
  { clear - HH H0. destruct (Rlt_dec 0 kappa).
    - apply sign_pos. destruct (Rle_dec h 0); [|lra]. nra.
    - apply sign_neg. destruct (Rle_dec 0 h); [|lra]. nra. }
  rewrite S. clear S. clearbody a. clear - Ha. rewrite (normalize_eq a Ha) at 1 2.
  generalize (norm a), (normalize a). intros r x. destruct (Rlt_dec 0 kappa).
  - generalize (cos (ph * t)), (sin (ph * t)). vec_ring.
  - replace (ph * - t) with (- (ph * t)) by ring. rewrite cos_neg, sin_neg.
    generalize (cos (ph * t)), (sin (ph * t)). vec_ring.
Qed.
(** So both signs start at the first point; with whole turns exactly the positive curvatures end at the second. *)
Theorem C109_curvature_ends p0 p1 kappa axis (n : Z) : p0 <> p1 -> cross (vsub p1 p0) axis <> ORIGIN -> kappa <> 0 ->
  norm (vsub p1 p0) / 2 < / Rabs kappa ->
  arc_from_2_point 0 p0 p1 kappa axis (IZR n) = Ok p0 /\
  (arc_from_2_point 1 p0 p1 kappa axis (IZR n) = Ok p1 <-> 0 < kappa).
Proof.
  intros NE HC K0 L. pose proof (C33_two_point_curvature p0 p1 kappa axis n true NE HC K0 L) as K. cbv zeta in K.
  destruct K as (S0 & S1 & _). pose proof (fun t => C109_curvature t p0 p1 kappa axis (IZR n) true NE HC K0 L) as Q. cbv zeta in Q.
  split; [rewrite Q; destruct (Rlt_dec 0 kappa); [|rewrite Ropp_0]; rewrite S0; reflexivity|].
  rewrite Q. destruct (Rlt_dec 0 kappa) as [P|N]; [rewrite S1; tauto|]. split; [|intros; contradiction].
  intros E. injection E as E. exfalso. pose proof (eq_trans E (eq_sym S1)) as E2. clear E Q S0 S1. rename E2 into E.
  destruct (arc_from_2_point_eq 0 p0 p1 kappa axis (IZR n) NE HC K0) as (u & w & h & EE & U & W & UW & WA & DP & CE & HH & _ & _).
  specialize (HH L). assert (H0 : h <> 0) by (intros ->; lra).
  pose proof (arc_ends p0 p1 u w _ h n true EE U W UW DP H0) as AE. cbv zeta in AE. rewrite <- CE in AE.
  destruct AE as (X & _ & _). unfold from_2_point_curvature, from_2_point_center in E. destruct (cross_nz _ _ X) as [Ha Hb].
  pose proof (two_point_frame _ _ X) as RF. rewrite !arc_frame_eval in E by exact RF.
  set (a := vsub p0 (curvature_center p0 p1 kappa axis)) in *. set (b := vsub p1 (curvature_center p0 p1 kappa axis)) in *.
  clearbody a b. clear CE HH.
  destruct (C14_angle_cos_sin a b) as [_ SN]. set (g := angle_between a b) in *.
  replace ((g + IZR n * PI * 2) * - (1)) with (- (g + 2 * IZR n * PI)) in E by ring.
  replace ((g + IZR n * PI * 2) * 1) with (g + 2 * IZR n * PI) in E by ring.
  rewrite cos_neg, sin_neg, cos_Zperiod, sin_Zperiod in E.
  assert (SP : sin g <> 0). { intros Z. rewrite Z, Rmult_0_r in SN. pose proof (norm_pos _ X). lra. }
  set (y := cross (normalize (cross a b)) (normalize a)) in *. set (x := normalize a) in *.
  assert (Y : dot y y = 1).
  { destruct RF as [RO _]. destruct (cols_dot _ RO) as (_ & Y & _). exact Y. }
  assert (Z : smul (norm a * sin g) y = ORIGIN).
  { clear - E. clearbody x y. destruct x as [x1 x2 x3], y as [y1 y2 y3], (curvature_center p0 p1 kappa axis) as [c1 c2 c3].
    unfold vadd, smul in *. cbn [vx vy vz] in *. injection E as E1 E2 E3. apply vec_eq; cbn [vx vy vz ORIGIN]; lra. }
  apply (f_equal (fun v => dot v y)) in Z. rewrite dot_smul_l, Y in Z. replace (dot ORIGIN y) with 0 in Z by (clear; clearbody y; vec_ring).
  pose proof (norm_pos a Ha). assert (norm a * sin g <> 0) by (apply Rmult_integral_contrapositive; lra). lra.
Qed.

(** A radius of at most half the chord: the half circle on the chord, for either sign of the curvature. *)
Theorem C109_half_circle p0 p1 kappa axis (n : Z) t : p0 <> p1 -> cross (vsub p1 p0) axis <> ORIGIN -> kappa <> 0 ->
  / Rabs kappa <= norm (vsub p1 p0) / 2 -> exists p, arc_from_2_point t p0 p1 kappa axis (IZR n) = Ok p /\
  norm (vsub p (smul (/ 2) (vadd p0 p1))) = norm (vsub p1 p0) / 2 /\ (t = 0 -> p = p0) /\ (t = 1 -> p = p1).
Proof.
  intros NE HC K0 L. destruct (arc_from_2_point_eq t p0 p1 kappa axis (IZR n) NE HC K0) as (u & w & h & E & U & W & UW & WA & DP & CE & _ & HZ & EQ).
  specialize (HZ L). eexists. split; [exact EQ|].
  assert (CE' : curvature_center p0 p1 kappa axis = smul (/ 2) (vadd p0 p1)) by (rewrite CE, HZ; clear; generalize (cross u w); vec_ring).
  rewrite CE'. clear CE CE' HZ EQ. set (d := norm (vsub p1 p0)) in *. set (m := smul (/ 2) (vadd p0 p1)).
  assert (A : vsub p0 m = smul (- (d / 2)) u).
  { transitivity (smul (- / 2) (vsub p1 p0)); [unfold m; clear; destruct p0, p1; apply vec_eq; vec_simpl; field|]. rewrite E, smul_smul. f_equal. field. }
  assert (B : vsub p1 m = vopp (vsub p0 m)) by (unfold m; clear; destruct p0, p1; apply vec_eq; vec_simpl; field).
  assert (NZ : vsub p0 m <> ORIGIN).
  { intros Z. rewrite A in Z. apply (f_equal (fun v => dot v u)) in Z. rewrite dot_smul_l, U in Z.
    replace (dot ORIGIN u) with 0 in Z by vec_ring. lra. }
  rewrite B. destruct (C14_angle_self _ NZ) as [_ ->].
  assert (WX : dot (cross w u) (cross w u) = 1 /\ dot u (cross w u) = 0).
  { rewrite lagrange, U, W, (dot_comm w u), UW. split; [ring|apply dot_cross_r]. }
  destruct WX as [XX UX].
  split; [|split].
  - apply norm_eq; [lra|]. rewrite A. clear - U XX UX.
    replace (cross w (smul (- (d / 2)) u)) with (smul (- (d / 2)) (cross w u)) by (clearbody d; clear; vec_ring).
    generalize dependent (cross w u). intros x XX UX.
    generalize (sin2_cos2 ((PI + IZR n * PI * 2) * t)). unfold Rsqr. generalize (sin ((PI + IZR n * PI * 2) * t)), (cos ((PI + IZR n * PI * 2) * t)).
    intros s c SC. clearbody d m.
    transitivity (d / 2 * (d / 2) * (c * c * dot u u + 2 * (c * s) * dot u x + s * s * dot x x)).
    + clear. destruct u, x, m. vec_simpl. ring.
    + rewrite U, XX, UX. replace (c * c * 1 + 2 * (c * s) * 0 + s * s * 1) with (s * s + c * c) by ring. rewrite SC. ring.
  - intros ->. rewrite Rmult_0_r, cos_0, sin_0. clear. generalize (cross w (vsub p0 m)). intros x. destruct p0, m, x. vec_ring.
  - intros ->. rewrite Rmult_1_r. replace (PI + IZR n * PI * 2) with (PI + 2 * IZR n * PI) by ring.
    rewrite cos_Zperiod, sin_Zperiod, cos_PI, sin_PI.
    transitivity (vadd (vsub p1 m) m); [rewrite B; clear; generalize (cross w (vsub p0 m)); intros x; destruct p0, m, x; vec_ring|apply vadd_vsub].
Qed.
Theorem C109_other t p0 p1 kappa axis rev :
  (kappa = 0 -> arc_from_2_point t p0 p1 kappa axis rev = Ok (c_eval (line_curve p0 p1 true) t)) /\
  (kappa <> 0 -> p0 = p1 -> arc_from_2_point t p0 p1 kappa axis rev = Err NameError) /\
  (kappa <> 0 -> p0 <> p1 -> cross (vsub p1 p0) axis = ORIGIN -> arc_from_2_point t p0 p1 kappa axis rev = Err ZeroDivisionError).
Proof.
  unfold arc_from_2_point. split; [|split].
  - intros K. destruct (Req_EM_T kappa 0); [|contradiction]. rewrite line_eval. f_equal. clear. destruct p0, p1. vec_ring.
  - intros K <-. destruct (Req_EM_T kappa 0); [contradiction|]. destruct (vec_eq_dec (vsub p0 p0) ORIGIN) as [_|N]; [reflexivity|].
    exfalso. apply N. clear. vec_ring.
  - intros K NE X. destruct (Req_EM_T kappa 0); [contradiction|].
    assert (D : vsub p1 p0 <> ORIGIN).
    { intros E. apply NE. rewrite <- (vadd_vsub p1 p0), E, vadd_0_l. reflexivity. }
    destruct (vec_eq_dec (vsub p1 p0) ORIGIN) as [Z|_]; [contradiction|]. unfold normalize_r.
    set (v := vsub p1 p0) in *. pose proof (norm_pos v D) as NP. pose proof (norm_sqr v) as NS.
    replace (vsub axis (smul (dot axis (normalize v)) (normalize v))) with ORIGIN.
    + destruct (Req_EM_T (norm ORIGIN) 0) as [_|N]; [reflexivity|]. exfalso. apply N, norm_ORIGIN.
    + transitivity (smul (/ (norm v * norm v)) (vsub (smul (dot v v) axis) (smul (dot v axis) v))).
      * rewrite <- triple, X. generalize (/ (norm v * norm v)). clear. intros k. clearbody v. vec_ring.
      * rewrite <- NS. unfold normalize. rewrite dot_smul_r, (dot_comm v axis). generalize dependent (norm v). intros k KP _.
        clearbody v. generalize (dot axis v). clear - KP. intros g. destruct axis, v. apply vec_eq; vec_simpl; field; lra.
Qed.

(** ** Cases *)

Definition parabola : curve := new_curve (SGen (fun t => V t (t * t) 0)) false 0 1 NDIV.
Lemma parabola_eval s : c_eval parabola s = V s (s * s) 0.
Proof. unfold c_eval. rewrite s2t_default by reflexivity. reflexivity. Qed.
Example C108_cubic_example : bezier 0 (fit_hermite_cubic parabola) = ORIGIN /\ bezier 1 (fit_hermite_cubic parabola) = V 1 1 0.
Proof.
  pose proof (C108_cubic parabola) as K. cbv zeta in K. destruct K as (A & B & _). rewrite A, B, !parabola_eval.
  split; vec_ring.
Qed.
Example C108_cubic_error_example : vy (bezier (1 / 2) (fit_hermite_cubic parabola)) = 1 / 4 + 1 / 40000.
Proof.
  rewrite (C108_cubic_error parabola ORIGIN RIGHT UP ORIGIN).
  - rewrite parabola_eval. vec_simpl. lra.
  - intros s. rewrite parabola_eval. vec_ring.
Qed.
Example C108_line_example : bezier (1 / 4) (fit_hermite_cubic (line_curve ORIGIN (V 4 8 0) true)) = V 1 2 0.
Proof.
  rewrite (C108_line _ ORIGIN (V 4 8 0)).
  - rewrite line_eval. apply vec_eq; vec_simpl; lra.
  - intros s. rewrite line_eval. vec_ring.
Qed.
Example C108_parabola_example : bezier (1 / 2) (fit_hermite_cubic parabola) <> c_eval parabola (1 / 2).
Proof.
  apply (C108_parabola_refuted parabola ORIGIN RIGHT UP).
  - intros s. rewrite parabola_eval. vec_ring.
  - intros E. injection E. lra.
Qed.

(** The quadratic fit of a parabola: what the solver must answer, and the resulting middle point, off by half the step. *)
Theorem C108_quadratic_parabola c a b q x : (forall s, c_eval c s = vadd a (vadd (smul s b) (smul (s * s) q))) ->
  cross b q <> ORIGIN ->
  (quadratic_target c x = ORIGIN <-> x = (3 / 2, - (3 / 2))) /\
  fit_hermite_quadratic (3 / 2, - (3 / 2)) c = [a; vadd a (smul (/ 2) (vadd b (smul (1 / 10000) q))); vadd a (vadd b q)].
Proof.
  intros H X. unfold quadratic_target, fit_hermite_quadratic, c_derivative.
  destruct (Req_EM_T 1 0) as [E|_]; [lra|]. destruct (Req_EM_T (-1) 0) as [E|_]; [lra|].
  destruct (Rlt_dec 0 1) as [_|N]; [|lra]. destruct (Rlt_dec 0 (-1)) as [N|_]; [lra|].
  rewrite !H. clear H. destruct x as [x0 x1]. cbn [fst snd]. split; [split|].
  - intros E.
    assert (A : vadd (smul (x0 - x1 - 3) b) (smul (x0 / 10000 - 2 * x1 + x1 / 10000 - 3) q) = ORIGIN).
    { transitivity (smul 3 ORIGIN); [rewrite <- E|vec_ring]. clear. destruct a, b, q. apply vec_eq; vec_simpl; field. }
    assert (A1 : smul (x0 - x1 - 3) (cross b q) = ORIGIN).
    { transitivity (cross (vadd (smul (x0 - x1 - 3) b) (smul (x0 / 10000 - 2 * x1 + x1 / 10000 - 3) q)) q);
        [clear; generalize (x0 - x1 - 3), (x0 / 10000 - 2 * x1 + x1 / 10000 - 3); vec_ring|]. rewrite A. clear. vec_ring. }
    assert (A2 : smul (x0 / 10000 - 2 * x1 + x1 / 10000 - 3) (cross b q) = ORIGIN).
    { transitivity (cross b (vadd (smul (x0 - x1 - 3) b) (smul (x0 / 10000 - 2 * x1 + x1 / 10000 - 3) q)));
        [clear; generalize (x0 - x1 - 3), (x0 / 10000 - 2 * x1 + x1 / 10000 - 3); vec_ring|]. rewrite A. clear. vec_ring. }
    assert (K : forall k, smul k (cross b q) = ORIGIN -> k = 0).
    { intros k Z. destruct (Req_dec k 0) as [|NZ]; [assumption|]. destruct (smul_nz k _ NZ X Z). }
    apply K in A1. apply K in A2. f_equal; lra.
  - intros E. injection E as -> ->. clear. destruct a, b, q. apply vec_eq; vec_simpl; field.
  - f_equal; [|f_equal; [|f_equal]]; clear; destruct a, b, q; apply vec_eq; vec_simpl; field.
Qed.
Example C108_quadratic_parabola_example : quadratic_target parabola (3 / 2, - (3 / 2)) = ORIGIN /\
  fit_hermite_quadratic (3 / 2, - (3 / 2)) parabola = [ORIGIN; V (1 / 2) (1 / 20000) 0; V 1 1 0].
Proof.
  destruct (C108_quadratic_parabola parabola ORIGIN RIGHT UP (3 / 2, - (3 / 2))) as [A B].
  - intros s. rewrite parabola_eval. vec_ring.
  - intros E. vec_simpl. injection E. lra.
  - split; [apply A; reflexivity|]. rewrite B. apply (f_equal2 cons); [reflexivity|].
    apply (f_equal2 cons); [apply vec_eq; vec_simpl; lra|]. apply (f_equal2 cons); [apply vec_eq; vec_simpl; lra|reflexivity].
Qed.
Example C108_quadratic_example :
  has_velocity (fun t => bezier t (fit_hermite_quadratic (3 / 2, - (3 / 2)) parabola)) 1
    (smul (- (2 / 3) * - (3 / 2)) (smul 10000 (vsub (c_eval parabola 1) (c_eval parabola (1 - 1 / 10000))))).
Proof.
  pose proof (C108_quadratic (3 / 2, - (3 / 2)) parabola) as K. cbv zeta in K. destruct K as (_ & _ & _ & K).
  apply K, C108_quadratic_parabola_example.
Qed.

Example C109_center_example t : arc_from_2_point_center t RIGHT UP ORIGIN 0 = Ok (c_eval (from_2_point_center RIGHT UP ORIGIN 0 true) t).
Proof. apply C109_center. intros E. vec_simpl. injection E. lra. Qed.
Lemma default_chord : norm (vsub UP RIGHT) / 2 < 1 /\ 1 < norm (vsub UP RIGHT).
Proof.
  pose proof (norm_sqr (vsub UP RIGHT)) as N. pose proof (norm_nonneg (vsub UP RIGHT)).
  replace (dot (vsub UP RIGHT) (vsub UP RIGHT)) with 2 in N by (vec_simpl; ring). split; nra.
Qed.
(** The default arguments end at UP; curvature -1 does not. *)
Example C109_curvature_ends_example : arc_from_2_point 1 RIGHT UP 1 OUT 0 = Ok UP /\
  arc_from_2_point 0 RIGHT UP (-1) OUT 0 = Ok RIGHT /\ arc_from_2_point 1 RIGHT UP (-1) OUT 0 <> Ok UP.
Proof.
  assert (NE : RIGHT <> UP) by (intros E; injection E; lra).
  assert (X : cross (vsub UP RIGHT) OUT <> ORIGIN) by (intros E; vec_simpl; injection E; lra).
  destruct default_chord as [L _].
  destruct (C109_curvature_ends RIGHT UP 1 OUT 0 NE X) as [_ A]; [lra|rewrite Rabs_R1, Rinv_1; exact L|].
  destruct (C109_curvature_ends RIGHT UP (-1) OUT 0 NE X) as [B C]; [lra|rewrite Rabs_left by lra; replace (- (-1)) with 1 by lra; rewrite Rinv_1; exact L|].
  split; [apply A; lra|]. split; [exact B|]. rewrite C. lra.
Qed.
Example C109_curvature_example t : arc_from_2_point t RIGHT UP (-1) OUT 3 = Ok (c_eval (from_2_point_curvature RIGHT UP (-1) OUT 3 true) (- t)).
Proof.
  destruct default_chord as [L _].
  pose proof (C109_curvature t RIGHT UP (-1) OUT 3 true) as K. cbv zeta in K. rewrite K.
  - destruct (Rlt_dec 0 (-1)); [lra|reflexivity].
  - intros E. injection E. lra.
  - intros E. vec_simpl. injection E. lra.
  - lra.
  - rewrite Rabs_left by lra. replace (- (-1)) with 1 by lra. rewrite Rinv_1. exact L.
Qed.
Example C109_half_circle_example : exists p, arc_from_2_point 1 RIGHT UP 5 OUT 0 = Ok p /\ p = UP.
Proof.
  destruct (C109_half_circle RIGHT UP 5 OUT 0 1) as (p & A & _ & _ & B).
  - intros E. injection E. lra.
  - intros E. vec_simpl. injection E. lra.
  - lra.
  - rewrite Rabs_right by lra. pose proof default_chord. lra.
  - exists p. split; [exact A|apply B; reflexivity].
Qed.
Example C109_other_example : arc_from_2_point (1 / 2) RIGHT RIGHT 2 OUT 0 = Err NameError /\
  arc_from_2_point (1 / 2) ORIGIN OUT 2 OUT 0 = Err ZeroDivisionError.
Proof.
  split; apply C109_other; try lra; try reflexivity.
  - intros E. injection E. lra.
  - apply vec_eq; vec_simpl; lra.
Qed.
