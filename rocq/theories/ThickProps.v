(** Property C56: tooth thickness at the pitch circle. *)
From Coq Require Import Nsatz Reals Lra Psatz Lia ZArith List Bool.
From Verif Require Import Num Vec Transform TransformProps Params ParamsProps Coords Gen Interp Curve CurveLem CurveProps GearMath GearLem GenProps Tooth Wrapper
  MeshLem MeshConj MeshProps MeshDistProps MeshAngleProps MeshContactProps.
Import ListNotations.
Open Scope R_scope.

(** ** Specification: a nominal tooth takes half the pitch, pi / 2 modules, on the pitch circle.  Shifting the profile by
    [x] modules adds [x tan alpha] on either side, the backlash coefficient and the crowning take material away from
    either side.  Lengths in units of the module; [w] is the relative height in the gear, -1 to 1. *)
Definition nominal_thickness (x alpha backlash crown w : R) : R :=
  PI / 2 + 2 * (x * tan alpha) - 2 * backlash - 2 * (w * w * crown / 1000).

(** The flank of the section at [z], before placing; the other flank is its mirror image. *)
Definition flank_at (g : igear) (z s2 s : R) : vec :=
  c_eval (involute_curve1 (k_rp (ig_core g)) (k_alpha (ig_core g)) (ig_pia g z) s2) s.
Definition opposite_flank (p : vec) : vec := V (vx p) (- vy p) (vz p).

Theorem C56_thickness g n z s2 : cylindrical g n -> inv (ip_alpha (ig_in g)) <= PI -> tooth_solved g s2 ->
  exists half, flank_at g z s2 s2 = circle_pt (IZR n / 2) (- half) /\
    opposite_flank (flank_at g z s2 s2) = circle_pt (IZR n / 2) half /\
    IZR n / 2 * (2 * half) = nominal_thickness (ip_shift (ig_in g)) (ip_alpha (ig_in g)) (ip_backlash (ig_in g))
      (ip_crown (ig_in g)) (z * 2 / ip_height (ig_in g) - 1).
Proof.
  intros H HI HS. assert (N : 0 < IZR n) by (apply IZR_lt; apply (cy_n _ _ H)).
  assert (RP : k_rp (ig_core g) = IZR n / 2) by (rewrite (cy_core _ _ H); cbn; rewrite (cy_teeth _ _ H); reflexivity).
  assert (AL : k_alpha (ig_core g) = ip_alpha (ig_in g)) by (rewrite (cy_core _ _ H); reflexivity).
  unfold tooth_solved in HS. rewrite (cy_teeth _ _ H) in HS.
  exists (ig_pia g z). unfold flank_at. rewrite RP, AL.
  assert (E : c_eval (involute_curve1 (IZR n / 2) (ip_alpha (ig_in g)) (ig_pia g z) s2) s2 = circle_pt (IZR n / 2) (- ig_pia g z)).
  { apply C42_flank_crosses_pitch_circle; [lra|apply (cy_alpha _ _ H)|exact HI|exact HS]. }
  rewrite E. split; [reflexivity|]. split.
  - unfold opposite_flank, circle_pt. cbn [vx vy vz]. rewrite cos_neg, sin_neg. f_equal; ring.
  - unfold ig_pia, crowning, nominal_thickness. rewrite RP. rewrite (cy_core _ _ H).
    cbn [with_trf calc_params k_tooth_angle]. rewrite (cy_teeth _ _ H).
    set (w := z * 2 / ip_height (ig_in g) - 1). set (ta := tan _). field. lra.
Qed.

(** There is no other crossing on the curve from the base circle outwards. *)
Theorem C56_only_crossing g n z s2 s : cylindrical g n -> inv (ip_alpha (ig_in g)) <= PI -> tooth_solved g s2 ->
  0 <= s2t (involute_curve0 (k_rp (ig_core g)) (k_alpha (ig_core g))) s ->
  norm (flank_at g z s2 s) = IZR n / 2 -> flank_at g z s2 s = flank_at g z s2 s2.
Proof.
  intros H HI HS S0 NR. assert (N : 0 < IZR n) by (apply IZR_lt; apply (cy_n _ _ H)).
  assert (RP : k_rp (ig_core g) = IZR n / 2) by (rewrite (cy_core _ _ H); cbn; rewrite (cy_teeth _ _ H); reflexivity).
  assert (AL : k_alpha (ig_core g) = ip_alpha (ig_in g)) by (rewrite (cy_core _ _ H); reflexivity).
  unfold tooth_solved in HS. rewrite (cy_teeth _ _ H) in HS. unfold flank_at in *. rewrite RP, AL in *.
  set (al := ip_alpha (ig_in g)) in *. set (rp := IZR n / 2) in *.
  assert (HA : 0 <= al < PI / 2) by apply (cy_alpha _ _ H). assert (RP0 : 0 < rp) by (unfold rp; lra).
  assert (C : 0 < cos al) by (apply cos_gt_0; lra).
  assert (T0 : 0 <= tan al).
  { unfold tan. apply Rmult_le_pos; [apply sin_ge_0; lra|]. left. apply Rinv_0_lt_compat. exact C. }
  assert (EV : forall v, c_eval (involute_curve1 rp al (ig_pia g z) s2) v =
     involute_circle (s2t (involute_curve0 rp al) v) (rp * cos al) (base_angle rp al (ig_pia g z) s2) ORIGIN 0) by reflexivity.
  rewrite !EV in *. rewrite (s2_exact_tan _ _ _ RP0 HA HS).
  assert (RC : 0 < rp * cos al) by (apply Rmult_lt_0_compat; lra).
  rewrite C23_radius in NR by lra. f_equal.
  set (t := s2t (involute_curve0 rp al) s) in *.
  assert (Q : (1 + t * t) * (cos al * cos al) = 1).
  { assert (K : sqrt (1 + t * t) * cos al = 1) by (apply (Rmult_eq_reg_l rp); [rewrite <- Rmult_assoc, (Rmult_comm rp), Rmult_assoc; nra|lra]).
    pose proof (sqrt_sqrt (1 + t * t) ltac:(nra)) as SS. nra. }
  assert (TQ : (1 + tan al * tan al) * (cos al * cos al) = 1).
  { unfold tan. pose proof (sc1 al). field_simplify; [|lra]. lra. }
  assert (t * t = tan al * tan al) by nra. nra.
Qed.

(** Tooth and tooth gap together make up one pitch, pi modules. *)
Corollary C56_tooth_and_gap g n z s2 : cylindrical g n -> inv (ip_alpha (ig_in g)) <= PI -> tooth_solved g s2 ->
  exists half gap, flank_at g z s2 s2 = circle_pt (IZR n / 2) (- half) /\
    mapp (rotz (2 * PI / IZR n)) (flank_at g z s2 s2) = circle_pt (IZR n / 2) (half + gap) /\
    IZR n / 2 * (2 * half + gap) = PI /\
    IZR n / 2 * gap = PI - nominal_thickness (ip_shift (ig_in g)) (ip_alpha (ig_in g)) (ip_backlash (ig_in g))
      (ip_crown (ig_in g)) (z * 2 / ip_height (ig_in g) - 1).
Proof.
  intros H HI HS. assert (N : 0 < IZR n) by (apply IZR_lt; apply (cy_n _ _ H)).
  destruct (C56_thickness g n z s2 H HI HS) as (half & E1 & _ & E3).
  exists half, (2 * PI / IZR n - 2 * half). rewrite <- E3, E1. split; [reflexivity|]. split; [|split; field; lra].
  unfold circle_pt. replace (half + (2 * PI / IZR n - 2 * half)) with (2 * PI / IZR n + - half) by ring.
  rewrite cos_plus, sin_plus. apply vec_eq; vec_simpl; ring.
Qed.

(** Twenty teeth, pressure angle 20 degrees, profile shift 0.3, backlash 0.05. *)
Example C56_example : exists g s2, cylindrical g 20 /\ tooth_solved g s2 /\ ip_shift (ig_in g) = 3 / 10 /\
  exists half, flank_at g 0 s2 s2 = circle_pt 10 (- half) /\ 10 * (2 * half) = PI / 2 + 6 / 10 * tan (PI / 9) - 1 / 10.
Proof.
  pose (p := mkIP 20 10 0 0 ORIGIN 0 2 false 0 0 0 (3 / 10) 1 (12 / 10) (PI / 9) (/ 20) 0 false 0).
  pose proof PI_RGT_0. destruct (C42_solver_value_exists 10 (PI / 9) ltac:(lra) ltac:(lra)) as (s2 & S2).
  assert (EI : ig_in (ig_new p) = p) by (cbn; unfold ip_normalise, p; cbn; destruct (Rlt_dec 20 0); [lra|reflexivity]).
  assert (C : cylindrical (ig_new p) 20) by (apply (ig_new_cylindrical p 20); cbn; try reflexivity; try lia; lra).
  assert (S : tooth_solved (ig_new p) s2) by (unfold tooth_solved; rewrite EI; cbn; replace (20 / 2) with 10 by field; exact S2).
  exists (ig_new p), s2. split; [exact C|]. split; [exact S|]. split; [rewrite EI; reflexivity|].
  destruct (C56_thickness (ig_new p) 20 0 s2 C) as (half & E1 & _ & E3); [rewrite EI; apply inv_20deg|exact S|].
  exists half. replace (20 / 2) with 10 in E1, E3 by field. split; [exact E1|]. rewrite E3, EI.
  unfold nominal_thickness, p. cbn [ip_shift ip_alpha ip_backlash ip_crown ip_height]. field.
Qed.
