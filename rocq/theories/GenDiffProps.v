(** Properties C23-C26, second part: the string (or the line to the contact point of the rolling
    circle) is normal to the generated curve, for every parameter value. *)
From Coq Require Import Nsatz Reals Lra Psatz.
From Coquelicot Require Import Coquelicot.
From Verif Require Import Num Vec Coords CoordsProps Gen GenProps.
Open Scope R_scope.

(** The curve f has velocity v at t. *)
Definition velocity (f : R -> vec) (t : R) (v : vec) : Prop :=
  is_derive (fun s : R => vx (f s)) t (vx v) /\
  is_derive (fun s : R => vy (f s)) t (vy v) /\
  is_derive (fun s : R => vz (f s)) t (vz v).

Lemma velocity_ext f g t v w : (forall s, f s = g s) -> v = w -> velocity f t v -> velocity g t w.
Proof.
  intros E -> (A & B & C). split; [|split].
  - apply (is_derive_ext (fun s : R => vx (f s))); [intros; rewrite E; reflexivity|exact A].
  - apply (is_derive_ext (fun s : R => vy (f s))); [intros; rewrite E; reflexivity|exact B].
  - apply (is_derive_ext (fun s : R => vz (f s))); [intros; rewrite E; reflexivity|exact C].
Qed.

(** A curve given in a frame turning about z with unit speed. *)
Lemma velocity_turning (u : R -> vec) (a t : R) (du : vec) : velocity u t du ->
  velocity (fun s => mapp (rotz (s + a)) (u s)) t
           (mapp (rotz (t + a)) (vadd du (cross OUT (u t)))).
Proof.
  intros (X & Y & Z).
  assert (G : forall c1 c2 : R -> R, forall d1 d2, is_derive c1 t d1 -> is_derive c2 t d2 ->
     is_derive (fun s : R => c1 s * vx (u s) + c2 s * vy (u s)) t
       (d1 * vx (u t) + c1 t * vx du + (d2 * vy (u t) + c2 t * vy du))).
  { intros c1 c2 d1 d2 H1 H2.
    apply (is_derive_plus (fun s : R => c1 s * vx (u s)) (fun s : R => c2 s * vy (u s))).
    - apply (is_derive_mult c1 (fun s : R => vx (u s)) t d1 (vx du) H1 X). intros; apply Rmult_comm.
    - apply (is_derive_mult c2 (fun s : R => vy (u s)) t d2 (vy du) H2 Y). intros; apply Rmult_comm. }
  split; [|split].
  - apply (is_derive_ext (fun s : R => cos (s + a) * vx (u s) + (- sin (s + a)) * vy (u s))).
    { intros s. vec_simpl. match goal with |- ?x = ?y => change (@eq R x y) end. ring. }
    evar_last; [apply (G (fun s => cos (s + a)) (fun s => - sin (s + a)) (- sin (t + a)) (- cos (t + a)))|].
    + auto_derive; [exact I|ring].
    + auto_derive; [exact I|ring].
    + vec_simpl. ring.
  - apply (is_derive_ext (fun s : R => sin (s + a) * vx (u s) + (cos (s + a)) * vy (u s))).
    { intros s. vec_simpl. match goal with |- ?x = ?y => change (@eq R x y) end. ring. }
    evar_last; [apply (G (fun s => sin (s + a)) (fun s => cos (s + a)) (cos (t + a)) (- sin (t + a)))|].
    + auto_derive; [exact I|ring].
    + auto_derive; [exact I|ring].
    + vec_simpl. ring.
  - apply (is_derive_ext (fun s : R => vz (u s))).
    { intros s. vec_simpl. match goal with |- ?x = ?y => change (@eq R x y) end. ring. }
    evar_last; [exact Z|]. vec_simpl. ring.
Qed.

(** C23: velocity of the involute has length r |t| and is normal to the string. *)
Theorem C23_string_is_normal t r angle :
  exists v, velocity (fun s => involute_circle s r angle ORIGIN 0) t v /\
    dot v (vsub (involute_circle t r angle ORIGIN 0) (circle_pt r (t + angle))) = 0 /\
    norm v = Rabs (r * t).
Proof.
  eexists. split; [|].
  - apply (velocity_ext (fun s => mapp (rotz (s + angle)) (V r (- r * s) 0))) with
      (v := mapp (rotz (t + angle)) (vadd (V 0 (- r) 0) (cross OUT (V r (- r * t) 0)))).
    + intros s. unfold involute_circle. vec_ring.
    + reflexivity.
    + apply (velocity_turning (fun s => V r (- r * s) 0)).
      split; [|split]; cbn [vx vy vz]; auto_derive; try exact I; ring.
  - assert (E : vsub (involute_circle t r angle ORIGIN 0) (circle_pt r (t + angle)) =
       mapp (rotz (t + angle)) (V 0 (- r * t) 0)) by (unfold involute_circle, circle_pt; vec_ring).
    rewrite E, orthogonal_dot, orthogonal_norm by apply rotation_rotz. split; [vec_ring|].
    replace (vadd (V 0 (- r) 0) (cross OUT (V r (- r * t) 0))) with (smul (r * t) RIGHT) by vec_ring.
    rewrite norm_smul. replace (norm RIGHT) with 1; [ring|]. symmetry. apply norm_eq; [lra|]. vec_ring.
Qed.

(** C24: on the sphere the velocity is normal to the string's great circle: orthogonal to both the
    tangent point and the curve point as seen from the sphere centre. *)
Theorem C24_string_is_normal t r C angle : C <> 0 -> - (1 / Rabs C) <= r <= 1 / Rabs C ->
  let RR := 1 / Rabs C in
  let c := on_z (sign C * sqrt (RR * RR - r * r)) in
  exists v, velocity (fun s => involute_sphere s r C angle ORIGIN 0) t v /\
    dot v (vsub (circle_pt r (t + angle)) c) = 0 /\
    dot v (vsub (involute_sphere t r C angle ORIGIN 0) c) = 0.
Proof.
  intros HC B. cbn zeta. pose proof (R_pos C HC) as RP. set (RR := 1 / Rabs C) in *.
  rewrite <- cos_asin_div by assumption.
  pose proof (sin_asin_div r RR RP B) as S. set (b := asin (r / RR)) in *.
  set (u := fun s => V (RR * (cos (r / RR * s) * sin b)) (- (RR * sin (r / RR * s)))
                       (- (RR * (sign C * (cos (r / RR * s) * cos b))) + sign C * (RR * cos b))).
  set (ps := r / RR * t).
  set (du := V (- r * sin ps * sin b) (- r * cos ps) (r * (sign C * (sin ps * cos b)))).
  assert (E : forall s, mapp (rotz (s + angle)) (u s) = involute_sphere s r C angle ORIGIN 0).
  { intros s. unfold involute_sphere. destruct (Req_EM_T C 0); [contradiction|]. fold RR. fold b.
    rewrite mapp_ORIGIN, vadd_0_l. rewrite <- cos_asin_div by assumption. fold b.
    rewrite !mapp_mmul. set (phi := r / RR * s).
    replace (mapp (rotz (- phi)) (smul RR RIGHT)) with
      (vadd (smul (RR * cos phi) RIGHT) (smul (- RR * sin phi) UP))
      by (apply vec_eq; vec_simpl; rewrite ?cos_neg, ?sin_neg; ring).
    rewrite mapp_vadd, !mapp_smul, roty_sign_RIGHT by exact HC.
    replace (mapp (roty ((PI / 2 - b) * sign C)) UP) with UP by vec_ring.
    unfold u. fold phi. vec_ring. }
  exists (mapp (rotz (t + angle)) (vadd du (cross OUT (u t)))). split; [|].
  - apply (velocity_ext (fun s => mapp (rotz (s + angle)) (u s)) _ t
      (mapp (rotz (t + angle)) (vadd du (cross OUT (u t)))) _ E eq_refl).
    apply velocity_turning. unfold u, du, ps.
    clearbody b. split; [|split]; cbn [vx vy vz]; auto_derive; try exact I; field; lra.
  - rewrite <- E.
    assert (Tc : vsub (circle_pt r (t + angle)) (on_z (sign C * (RR * cos b))) =
     mapp (rotz (t + angle)) (V r 0 (- (sign C * (RR * cos b))))) by (unfold circle_pt, on_z; vec_ring).
    assert (Pc : vsub (mapp (rotz (t + angle)) (u t)) (on_z (sign C * (RR * cos b))) =
     mapp (rotz (t + angle)) (vsub (u t) (on_z (sign C * (RR * cos b))))).
    { generalize (u t). intros [x y z]. unfold on_z. vec_ring. }
    rewrite Tc, Pc, !orthogonal_dot by apply rotation_rotz.
    unfold u, du, on_z. fold ps. pose proof (sc1 b) as SB. pose proof (sc1 ps) as SP.
    pose proof (sign_sqr C HC) as SS. clearbody b ps. clear - S SB SP SS. vec_simpl.
    subst r. revert SB SP SS. generalize (sin b) (cos b) (sin ps) (cos ps) (sign C).
    intros sb cb sp cp sg SB SP SS. split; nsatz.
Qed.
Example C24_string_is_normal_example :
  let c := on_z (sign (1/2) * sqrt (1 / Rabs (1/2) * (1 / Rabs (1/2)) - 1 * 1)) in
  exists v, velocity (fun s => involute_sphere s 1 (1/2) 1 ORIGIN 0) 2 v /\ dot v (vsub (circle_pt 1 (2 + 1)) c) = 0.
Proof.
  assert (E : 1 / Rabs (1/2) = 2) by (rewrite Rabs_right by lra; field).
  destruct (C24_string_is_normal 2 1 (1/2) 1) as (v & A & B & _); [lra|rewrite E; lra|]. exists v. split; [exact A|exact B].
Qed.

(** C25: the contact point is the instantaneous centre of rotation of the rolling circle. *)
Theorem C25_contact_is_normal t rb rc angle : rc <> 0 ->
  exists v, velocity (fun s => cycloid_circle s rb rc angle ORIGIN 0) t v /\
    dot v (vsub (cycloid_circle t rb rc angle ORIGIN 0) (circle_pt rb (t + angle))) = 0 /\
    norm v = Rabs ((rb + rc) / rc) * norm (vsub (cycloid_circle t rb rc angle ORIGIN 0) (circle_pt rb (t + angle))).
Proof.
  intros Hrc. set (u := fun s => V (rb + rc - rc * cos (s * rb / rc)) (- rc * sin (s * rb / rc)) 0).
  set (b := t * rb / rc). set (du := V (rb * sin b) (- rb * cos b) 0).
  assert (E : forall s, mapp (rotz (s + angle)) (u s) = cycloid_circle s rb rc angle ORIGIN 0).
  { intros s. unfold cycloid_circle, u. vec_ring. }
  exists (mapp (rotz (t + angle)) (vadd du (cross OUT (u t)))). split; [|].
  - apply (velocity_ext (fun s => mapp (rotz (s + angle)) (u s)) _ t
      (mapp (rotz (t + angle)) (vadd du (cross OUT (u t)))) _ E eq_refl).
    apply velocity_turning. unfold u, du, b.
    split; [|split]; cbn [vx vy vz]; auto_derive; try exact I; unfold Rdiv; try (field; lra).
  - rewrite <- E.
    assert (K : vsub (mapp (rotz (t + angle)) (u t)) (circle_pt rb (t + angle)) =
      mapp (rotz (t + angle)) (vsub (u t) (V rb 0 0))).
    { generalize (u t). intros [x y z]. unfold circle_pt. vec_ring. }
    rewrite K, !orthogonal_dot, !orthogonal_norm by apply rotation_rotz.
    assert (U : u t = V (rb + rc - rc * cos b) (- rc * sin b) 0) by reflexivity.
    rewrite U. unfold du. pose proof (sc1 b). clearbody b. split.
    + vec_simpl. ring.
    + set (w := vsub (V (rb + rc - rc * cos b) (- rc * sin b) 0) (V rb 0 0)).
      rewrite <- norm_smul.
      replace (vadd (V (rb * sin b) (- rb * cos b) 0) (cross OUT (V (rb + rc - rc * cos b) (- rc * sin b) 0)))
        with (cross OUT (smul ((rb + rc) / rc) w)).
      * unfold norm. apply (f_equal sqrt). unfold w. vec_ring.
      * unfold w. apply vec_eq; vec_simpl; field; assumption.
Qed.
Example C25_contact_is_normal_example :
  exists v, velocity (fun s => cycloid_circle s 3 (-1) 1 ORIGIN 0) 2 v
  /\ dot v (vsub (cycloid_circle 2 3 (-1) 1 ORIGIN 0) (circle_pt 3 (2 + 1))) = 0.
Proof. destruct (C25_contact_is_normal 2 3 (-1) 1) as (v & A & B & _); [lra|]. exists v. split; [exact A|exact B]. Qed.

(** C26: the same for the cone. *)
Theorem C26_contact_is_normal t rb rc C angle : C <> 0 -> rc <> 0 ->
  exists v f, (forall s, cycloid_cone s rb rc C angle ORIGIN 0 = Ok (f s)) /\ velocity f t v /\
    dot v (vsub (f t) (circle_pt rb (t + angle))) = 0.
Proof.
  intros HC Hrc. set (g := asin (rb / (1 / Rabs C)) + asin (rc / (1 / Rabs C))).
  set (u := fun s => V (rb + rc * (1 - cos (s * rb / rc)) * cos g) (- rc * sin (s * rb / rc))
                       (sign C * (rc * (1 - cos (s * rb / rc)) * sin g))).
  set (b := t * rb / rc).
  set (du := V (rb * sin b * cos g) (- rb * cos b) (sign C * (rb * sin b * sin g))).
  exists (mapp (rotz (t + angle)) (vadd du (cross OUT (u t)))), (fun s => mapp (rotz (s + angle)) (u s)).
  split; [|split].
  - intros s. unfold cycloid_cone. destruct (Req_EM_T C 0); [contradiction|]. f_equal. fold g.
    assert (RY : forall x, roty (- sign C * x) = M (cos x) 0 (- sign C * sin x) 0 1 0 (sign C * sin x) 0 (cos x)).
    { intros x. destruct (sign_cases C HC) as [-> | ->].
      - replace (- (1) * x) with (- x) by ring. unfold roty. rewrite cos_neg, sin_neg. apply mat_eq; cbn; ring.
      - replace (- (-1) * x) with x by ring. unfold roty. apply mat_eq; cbn; ring. }
    rewrite RY. generalize (sqrt (1 / Rabs C * (1 / Rabs C) - rb * rb)). intros q. unfold u. vec_ring.
  - apply velocity_turning. unfold u, du, b. clearbody g. generalize (sign C). intros sg.
    split; [|split]; cbn [vx vy vz]; auto_derive; try exact I; unfold Rdiv; try (field; lra).
  - assert (K : vsub (mapp (rotz (t + angle)) (u t)) (circle_pt rb (t + angle)) =
      mapp (rotz (t + angle)) (vsub (u t) (V rb 0 0))).
    { generalize (u t). intros [x y z]. unfold circle_pt. vec_ring. }
    rewrite K, !orthogonal_dot by apply rotation_rotz.
    assert (U : u t = V (rb + rc * (1 - cos b) * cos g) (- rc * sin b) (sign C * (rc * (1 - cos b) * sin g))) by reflexivity.
    rewrite U. unfold du. pose proof (sc1 b) as X. pose proof (sc1 g) as Y. pose proof (sign_sqr C HC) as Z.
    clearbody b g. clear - X Y Z. vec_simpl. revert X Y Z. generalize (sin b) (cos b) (sin g) (cos g) (sign C).
    intros sb cb sg cg s X Y Z. nsatz.
Qed.
Example C26_contact_is_normal_example :
  exists v f, (forall s, cycloid_cone s 1 (1/4) (1/2) 1 ORIGIN 0 = Ok (f s)) /\ velocity f 2 v
  /\ dot v (vsub (f 2) (circle_pt 1 (2 + 1))) = 0.
Proof. apply C26_contact_is_normal; lra. Qed.
