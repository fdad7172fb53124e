(** Conjugate involute flanks: the geometry behind C45. *)
From Coq Require Import Nsatz Reals Lra Psatz Lia ZArith List Bool.
From Verif Require Import Num Vec Transform TransformProps Params ParamsProps Coords CoordsProps Gen GenProps
  Interp Curve CurveLem CurveProps Chain GearMath Tooth Wrapper GearLem MeshAngleProps MeshLem MeshNormal.
Import ListNotations.
Open Scope R_scope.

(** ** C45, specification *)

(** The line through [B] with direction [n] touches the circle of radius [rb] about [c]
    (in the plane with normal [z]) at [B]. Specification only, no code. *)
Definition line_tangent (c z B n : vec) (rb : R) : Prop :=
  norm (vsub B c) = rb /\ dot (vsub B c) n = 0 /\ dot (vsub B c) z = 0 /\ dot n z = 0.

(** Conjugate external gears: there are two lines, each touching both base circles, such that
    for every roll [x] (gear 1 by x pitches forward, gear 2 by x pitches back), tooth [m - k] of
    gear 1 lies between teeth [k] and [k - 1] of gear 2: the lower flanks of teeth [m - k] and
    [k] meet the first line in points separated by [gl], the upper flanks of [m - k] and
    [k - 1] meet the second in points separated by [gu]; each point is reached from the base
    circle by a string of the involute's length, along the line.  [L] is the distance of the two
    points of tangency; the contact advances by one base pitch per pitch of rolling;
    both flanks are perpendicular to the line. *)
Definition conjugate_external (T1 T2 : gtransform) (n1 n2 : Z) (r1 r2 A1 A2 gl gu L : R) : Prop :=
  let rb1 := g_scale T1 * r1 in let rb2 := g_scale T2 * r2 in
  exists (m : Z) (e e' : R) (n B1 B2 n' B1' B2' : vec),
    norm n = 1 /\ norm n' = 1 /\
    line_tangent (g_center T1) (g_z_axis T1) B1 n rb1 /\
    line_tangent (g_center T2) (g_z_axis T2) B2 n rb2 /\
    line_tangent (g_center T1) (g_z_axis T1) B1' n' rb1 /\
    line_tangent (g_center T2) (g_z_axis T2) B2' n' rb2 /\
    B2 = vadd B1 (smul L n) /\ B1' = vadd B2' (smul L n') /\
    forall (x : R) (k : Z),
      (exists t1 t2,
         let P1 := lower_flank (turned T1 n1 x) n1 r1 A1 (m - k) t1 in
         let P2 := lower_flank (turned T2 n2 (- x)) n2 r2 A2 k t2 in
         t1 = (e - x + IZR k) * (2 * PI / IZR n1) /\
         P1 = vadd B1 (smul (rb1 * t1) n) /\ P2 = vsub B2 (smul (rb2 * t2) n) /\
         P2 = vadd P1 (smul gl n) /\
         normal_to (lower_flank (turned T1 n1 x) n1 r1 A1 (m - k)) n t1 /\
         normal_to (lower_flank (turned T2 n2 (- x)) n2 r2 A2 k) n t2) /\
      (exists t1 t2,
         let P1 := upper_flank (turned T1 n1 x) n1 r1 A1 (m - k) t1 in
         let P2 := upper_flank (turned T2 n2 (- x)) n2 r2 A2 (k - 1) t2 in
         t1 = (e' + x - IZR k) * (2 * PI / IZR n1) /\
         P1 = vsub B1' (smul (rb1 * t1) n') /\ P2 = vadd B2' (smul (rb2 * t2) n') /\
         P1 = vadd P2 (smul gu n') /\
         normal_to (upper_flank (turned T1 n1 x) n1 r1 A1 (m - k)) n' t1 /\
         normal_to (upper_flank (turned T2 n2 (- x)) n2 r2 A2 (k - 1)) n' t2).

(** Conjugate pinion (p) and ring (r): both turn in the same sense; flank [m + k] of the pinion
    lies in space [k] of the ring. Specification only, no code. *)
Definition conjugate_ring (Tp Tr : gtransform) (np nr : Z) (rp rr Ap Ar gl gu L : R) : Prop :=
  let rbp := g_scale Tp * rp in let rbr := g_scale Tr * rr in
  exists (m : Z) (e e' : R) (n Bp Br n' Bp' Br' : vec),
    norm n = 1 /\ norm n' = 1 /\
    line_tangent (g_center Tp) (g_z_axis Tp) Bp n rbp /\
    line_tangent (g_center Tr) (g_z_axis Tr) Br n rbr /\
    line_tangent (g_center Tp) (g_z_axis Tp) Bp' n' rbp /\
    line_tangent (g_center Tr) (g_z_axis Tr) Br' n' rbr /\
    Br = vadd Bp (smul L n) /\ Bp' = vadd Br' (smul L n') /\
    forall (x : R) (k : Z),
      (exists tp tr,
         let P := lower_flank (turned Tp np x) np rp Ap (m + k) tp in
         let Q := lower_flank (turned Tr nr x) nr rr Ar k tr in
         tp = (e - x - IZR k) * (2 * PI / IZR np) /\
         P = vsub Bp (smul (rbp * tp) n) /\ Q = vsub Br (smul (rbr * tr) n) /\
         P = vadd Q (smul gl n) /\
         normal_to (lower_flank (turned Tp np x) np rp Ap (m + k)) n tp /\
         normal_to (lower_flank (turned Tr nr x) nr rr Ar k) n tr) /\
      (exists tp tr,
         let P := upper_flank (turned Tp np x) np rp Ap (m + k) tp in
         let Q := upper_flank (turned Tr nr x) nr rr Ar k tr in
         tp = (e' + x + IZR k) * (2 * PI / IZR np) /\
         P = vadd Bp' (smul (rbp * tp) n') /\ Q = vadd Br' (smul (rbr * tr) n') /\
         Q = vadd P (smul gu n') /\
         normal_to (upper_flank (turned Tp np x) np rp Ap (m + k)) n' tp /\
         normal_to (upper_flank (turned Tr nr x) nr rr Ar k) n' tr).

Lemma dir'_z O a : orthogonal O -> dot (dir' O a) (col3 O) = 0.
Proof.
  intros H. replace (col3 O) with (mapp O OUT) by vec_ring. unfold dir'.
  rewrite orthogonal_dot by exact H. vec_simpl. ring.
Qed.

Lemma tangent_dir O c a rb : orthogonal O -> 0 <= rb ->
  line_tangent c (col3 O) (vadd c (smul rb (dir O a))) (dir' O a) rb /\
  line_tangent c (col3 O) (vadd c (smul rb (dir O (a + PI)))) (dir' O a) rb.
Proof.
  intros HO Hr. unfold line_tangent.
  replace (vsub (vadd c (smul rb (dir O a))) c) with (smul rb (dir O a)) by vec_ring.
  replace (vsub (vadd c (smul rb (dir O (a + PI)))) c) with (smul rb (dir O (a + PI))) by vec_ring.
  rewrite !norm_smul, !norm_dir, !Rabs_right, !dot_smul_l, !dir_z, dir'_z, dir_dir'_dot by (assumption || lra).
  rewrite dir_pi. replace (dot (vopp (dir O a)) (dir' O a)) with (- dot (dir O a) (dir' O a)) by vec_ring.
  rewrite dir_dir'_dot by assumption. repeat split; ring.
Qed.

Lemma norm_dir' O a : orthogonal O -> norm (dir' O a) = 1.
Proof. intros. apply norm_unit, dir'_dot. assumption. Qed.

Lemma ext_conjugate O c2 psi a T1 T2 n1 n2 r1 r2 A1 A2 bl bias :
  orthogonal O -> g_orient T1 = O -> g_orient T2 = O -> (0 < n1)%Z -> (0 < n2)%Z ->
  let rb1 := g_scale T1 * r1 in let rb2 := g_scale T2 * r2 in
  0 < rb1 -> 0 < rb2 -> / 10 ^ 12 <= rb1 + rb2 ->
  rb1 * (2 * PI / IZR n1) = rb2 * (2 * PI / IZR n2) ->
  - PI / 2 < a < PI / 2 ->
  inv a * (rb1 + rb2) = rb1 * A1 + rb2 * A2 - rb2 * (2 * PI / IZR n2) / 2 + bl / 2 ->
  g_center T2 = c2 ->
  g_center T1 = vadd c2 (smul ((rb1 + rb2) / cos a) (dir O psi)) ->
  (forall Ta, g_center Ta = g_center T1 -> g_orient Ta = O ->
   g_angle T1 = calc_mesh_angle Ta T2 (2 * PI / IZR n1) (2 * PI / IZR n2) false false
                + bias / 2 * bl / rb1) ->
  conjugate_external T1 T2 n1 n2 r1 r2 A1 A2 (bl / 2 * (1 + bias)) (bl / 2 * (1 - bias))
    ((rb1 + rb2) * tan a).
Proof.
  intros HO O1 O2 Hn1 Hn2 rb1 rb2 R1 R2 R12 PB Ha EQ C2 C1 ANG.
  pose proof PI_RGT_0. pose proof (IZR_pos _ Hn1). pose proof (IZR_pos _ Hn2).
  pose proof (cos_pos_in a Ha) as CA. pose proof (COS_bound a) as CB.
  assert (HD : / 10 ^ 12 <= (rb1 + rb2) / cos a).
  { apply Rle_trans with (rb1 + rb2); [exact R12|].
    apply Rmult_le_reg_r with (cos a); [exact CA|]. unfold Rdiv. rewrite Rmult_assoc, Rinv_l by lra. nra. }
  destruct (ext_phase O c2 psi _ T1 T2 n1 n2 HO O1 O2 Hn1 Hn2 C2 C1 HD) as (m & PH).
  specialize (ANG T1 eq_refl O1).
  set (ma := calc_mesh_angle _ _ _ _ _ _) in *. clearbody ma.
  set (p1 := 2 * PI / IZR n1) in *. set (p2 := 2 * PI / IZR n2) in *.
  assert (P1 : 0 < p1) by (apply Rdiv_lt_0_compat; lra).
  assert (P2 : 0 < p2) by (apply Rdiv_lt_0_compat; lra).
  set (pb := rb1 * p1) in *.
  (* phase relation multiplied by the base pitch *)
  assert (PHM : rb1 * (ma - psi - PI) + rb2 * (g_angle T2 - psi) = pb * (1 / 2 + IZR m)).
  { rewrite <- PH. unfold pb at 1. rewrite Rmult_plus_distr_l.
    replace (rb1 * p1 * ((g_angle T2 - psi) / p2)) with (rb2 * p2 * ((g_angle T2 - psi) / p2))
      by (rewrite <- PB; reflexivity).
    field. lra. }
  assert (BB : rb1 * (bias / 2 * bl / rb1) = bias * bl / 2) by (field; lra).
  exists (- m)%Z, ((psi + a + PI - g_angle T1 + A1) / p1 + IZR m), ((g_angle T1 + A1 - (psi - a + PI)) / p1 - IZR m),
    (dir' O (psi + a)), (vadd (g_center T1) (smul rb1 (dir O (psi + a + PI)))),
    (vadd (g_center T2) (smul rb2 (dir O (psi + a)))),
    (dir' O (psi - a)), (vadd (g_center T1) (smul rb1 (dir O (psi - a + PI)))),
    (vadd (g_center T2) (smul rb2 (dir O (psi - a)))).
  split; [apply norm_dir'; assumption|]. split; [apply norm_dir'; assumption|].
  unfold g_z_axis. rewrite O1, O2. fold rb1 rb2.
  split; [apply tangent_dir; [assumption|lra]|]. split; [apply tangent_dir; [assumption|lra]|].
  split; [apply tangent_dir; [assumption|lra]|]. split; [apply tangent_dir; [assumption|lra]|].
  split.
  { pose proof (ext_lower O _ c2 rb1 rb2 psi a 0 0 Ha C1) as E. cbn zeta in E.
    replace ((rb1 + rb2) * tan a - rb1 * 0 - rb2 * 0) with ((rb1 + rb2) * tan a) in E by ring.
    rewrite C2.
    replace (vsub (dir O (psi + a + PI)) (smul 0 (dir' O (psi + a + PI)))) with (dir O (psi + a + PI)) in E by vec_ring.
    replace (vsub (dir O (psi + a)) (smul 0 (dir' O (psi + a)))) with (dir O (psi + a)) in E by vec_ring.
    exact E. }
  split.
  { pose proof (ext_upper O _ c2 rb1 rb2 psi a 0 0 Ha C1) as E. cbn zeta in E.
    replace ((rb1 + rb2) * tan a - rb1 * 0 - rb2 * 0) with ((rb1 + rb2) * tan a) in E by ring.
    rewrite C2.
    replace (vadd (dir O (psi - a + PI)) (smul 0 (dir' O (psi - a + PI)))) with (dir O (psi - a + PI)) in E by vec_ring.
    replace (vadd (dir O (psi - a)) (smul 0 (dir' O (psi - a)))) with (dir O (psi - a)) in E by vec_ring.
    exact E. }
  intros x k.
  assert (MK : IZR (- m - k) = - IZR m - IZR k) by (rewrite minus_IZR, opp_IZR; ring).
  assert (XX : rb1 * (x * p1) - rb2 * (x * p2) = 0) by (rewrite <- !Rmult_assoc, (Rmult_comm rb1 x), (Rmult_comm rb2 x), !Rmult_assoc; fold pb; rewrite PB; ring).
  assert (KK : forall j, rb2 * (IZR j * p2) = pb * IZR j) by (intros; rewrite PB; ring).
  assert (KK1 : forall z, rb1 * (z * p1) = pb * z) by (intros; unfold pb; ring).
  split.
  - set (t1 := psi + a + PI - (g_angle (turned T1 n1 x) + IZR (- m - k) * p1 - A1)).
    set (t2 := psi + a - (g_angle (turned T2 n2 (- x)) + IZR k * p2 - A2)).
    assert (NO : normal_to (lower_flank (turned T1 n1 x) n1 r1 A1 (- m - k)) (dir' O (psi + a)) t1 /\
                 normal_to (lower_flank (turned T2 n2 (- x)) n2 r2 A2 k) (dir' O (psi + a)) t2).
    { split.
      - replace O with (g_orient (turned T1 n1 x)) by assumption. apply lower_flank_normal.
        + cbn [turned g_orient]. rewrite O1. exact HO.
        + fold p1. replace (_ - (psi + a)) with PI by (unfold t1; ring). apply sin_PI.
      - replace O with (g_orient (turned T2 n2 (- x))) by assumption. apply lower_flank_normal.
        + cbn [turned g_orient]. rewrite O2. exact HO.
        + fold p2. replace (_ - (psi + a)) with 0 by (unfold t2; ring). apply sin_0. }
    exists t1, t2. cbn zeta.
    split; [unfold t1; cbn [turned g_angle]; rewrite MK; fold p1; field; lra|].
    rewrite !lower_flank_eq. cbn [turned g_center g_orient g_scale]. rewrite O1, O2. fold p1 p2.
    fold rb1 rb2.
    change (g_angle T1 + x * p1) with (g_angle (turned T1 n1 x)).
    change (g_angle T2 + - x * p2) with (g_angle (turned T2 n2 (- x))).
    replace (g_angle (turned T1 n1 x) + IZR (- m - k) * p1 - A1 + t1) with (psi + a + PI) by (unfold t1; ring).
    replace (g_angle (turned T2 n2 (- x)) + IZR k * p2 - A2 + t2) with (psi + a) by (unfold t2; ring).
    split; [rewrite dir'_pi; vec_ring|]. split; [vec_ring|].
    split; [|exact NO]. clear NO.
    rewrite C2. rewrite (ext_lower O _ c2 rb1 rb2 psi a t1 t2 Ha C1). f_equal. f_equal.
    assert (S : rb1 * t1 + rb2 * t2 = (rb1 + rb2) * a + rb1 * A1 + rb2 * A2 - pb / 2 - bias * bl / 2).
    { unfold t1, t2. cbn [turned g_angle]. fold p1 p2. rewrite ANG, MK.
      replace (rb1 * (psi + a + PI - (ma + bias / 2 * bl / rb1 + x * p1 + (- IZR m - IZR k) * p1 - A1)) +
        rb2 * (psi + a - (g_angle T2 + - x * p2 + IZR k * p2 - A2)))
      with ((rb1 + rb2) * a + rb1 * A1 + rb2 * A2 -
        (rb1 * (ma - psi - PI) + rb2 * (g_angle T2 - psi)) - rb1 * (bias / 2 * bl / rb1)
        - (rb1 * (x * p1) - rb2 * (x * p2)) + rb1 * (IZR m * p1) + rb1 * (IZR k * p1) - rb2 * (IZR k * p2)) by ring.
      rewrite PHM, BB, XX, KK, !KK1. field. }
    unfold inv in EQ.
    replace (rb2 * p2 / 2) with (pb / 2) in EQ by (rewrite PB; reflexivity). lra.
  - set (t1 := (g_angle (turned T1 n1 x) + IZR (- m - k) * p1 + A1) - (psi - a + PI)).
    set (t2 := (g_angle (turned T2 n2 (- x)) + IZR (k - 1) * p2 + A2) - (psi - a)).
    assert (NO : normal_to (upper_flank (turned T1 n1 x) n1 r1 A1 (- m - k)) (dir' O (psi - a)) t1 /\
                 normal_to (upper_flank (turned T2 n2 (- x)) n2 r2 A2 (k - 1)) (dir' O (psi - a)) t2).
    { split.
      - replace O with (g_orient (turned T1 n1 x)) by assumption. apply upper_flank_normal.
        + cbn [turned g_orient]. rewrite O1. exact HO.
        + fold p1. replace (_ - (psi - a)) with PI by (unfold t1; ring). apply sin_PI.
      - replace O with (g_orient (turned T2 n2 (- x))) by assumption. apply upper_flank_normal.
        + cbn [turned g_orient]. rewrite O2. exact HO.
        + fold p2. replace (_ - (psi - a)) with 0 by (unfold t2; ring). apply sin_0. }
    exists t1, t2. cbn zeta.
    split; [unfold t1; cbn [turned g_angle]; rewrite MK; fold p1; field; lra|].
    rewrite !upper_flank_eq. cbn [turned g_center g_orient g_scale]. rewrite O1, O2. fold p1 p2.
    fold rb1 rb2.
    change (g_angle T1 + x * p1) with (g_angle (turned T1 n1 x)).
    change (g_angle T2 + - x * p2) with (g_angle (turned T2 n2 (- x))).
    replace (g_angle (turned T1 n1 x) + IZR (- m - k) * p1 + A1 - t1) with (psi - a + PI) by (unfold t1; ring).
    replace (g_angle (turned T2 n2 (- x)) + IZR (k - 1) * p2 + A2 - t2) with (psi - a) by (unfold t2; ring).
    split; [rewrite dir'_pi; vec_ring|]. split; [vec_ring|].
    split; [|exact NO]. clear NO.
    rewrite C2. rewrite (ext_upper O _ c2 rb1 rb2 psi a t1 t2 Ha C1). f_equal. f_equal.
    assert (S : rb1 * t1 + rb2 * t2 = (rb1 + rb2) * a + rb1 * A1 + rb2 * A2 - pb / 2 + bias * bl / 2).
    { unfold t1, t2. cbn [turned g_angle]. fold p1 p2. rewrite ANG, MK, minus_IZR.
      replace (rb1 * (ma + bias / 2 * bl / rb1 + x * p1 + (- IZR m - IZR k) * p1 + A1 - (psi - a + PI)) +
        rb2 * (g_angle T2 + - x * p2 + (IZR k - 1) * p2 + A2 - (psi - a)))
      with ((rb1 + rb2) * a + rb1 * A1 + rb2 * A2 +
        (rb1 * (ma - psi - PI) + rb2 * (g_angle T2 - psi)) + rb1 * (bias / 2 * bl / rb1)
        + (rb1 * (x * p1) - rb2 * (x * p2)) - rb1 * (IZR m * p1) - rb1 * (IZR k * p1)
        + rb2 * (IZR k * p2) - rb2 * p2) by ring.
      rewrite PHM, BB, XX, KK, !KK1, <- PB. field. }
    unfold inv in EQ.
    replace (rb2 * p2 / 2) with (pb / 2) in EQ by (rewrite PB; reflexivity). lra.
Qed.

Lemma ring_conjugate O psi b Tp Tr np nr rp rr Ap Ar bl e (m : Z) :
  orthogonal O -> g_orient Tp = O -> g_orient Tr = O -> (0 < np)%Z -> (0 < nr)%Z ->
  let rbp := g_scale Tp * rp in let rbr := g_scale Tr * rr in
  0 < rbp -> 0 < rbr ->
  rbp * (2 * PI / IZR np) = rbr * (2 * PI / IZR nr) ->
  - PI / 2 < b < PI / 2 ->
  inv b * (rbr - rbp) = rbr * Ar - rbp * Ap - bl / 2 ->
  g_center Tp = vadd (g_center Tr) (smul ((rbr - rbp) / cos b) (dir O psi)) ->
  rbr * g_angle Tr - rbp * g_angle Tp - (rbr - rbp) * psi
    = rbp * (2 * PI / IZR np) * IZR m - e ->
  conjugate_ring Tp Tr np nr rp rr Ap Ar (bl / 2 + e) (bl / 2 - e) ((rbr - rbp) * tan b).
Proof.
  intros HO Op Or Hnp Hnr rbp rbr Rp Rr PB Hb EQ C PH.
  pose proof PI_RGT_0. pose proof (IZR_pos _ Hnp). pose proof (IZR_pos _ Hnr).
  pose proof (cos_pos_in b Hb) as CA.
  set (pp := 2 * PI / IZR np) in *. set (pr := 2 * PI / IZR nr) in *.
  set (pb := rbp * pp) in *.
  assert (PP : 0 < pp) by (apply Rdiv_lt_0_compat; lra).
  exists m, ((psi + b - g_angle Tp + Ap) / pp - IZR m), ((g_angle Tp + Ap - (psi - b)) / pp + IZR m), (dir' O (psi + b)), (vadd (g_center Tp) (smul rbp (dir O (psi + b)))),
    (vadd (g_center Tr) (smul rbr (dir O (psi + b)))),
    (dir' O (psi - b)), (vadd (g_center Tp) (smul rbp (dir O (psi - b)))),
    (vadd (g_center Tr) (smul rbr (dir O (psi - b)))).
  split; [apply norm_dir'; assumption|]. split; [apply norm_dir'; assumption|].
  unfold g_z_axis. rewrite Op, Or. fold rbp rbr.
  split; [apply tangent_dir; [assumption|lra]|]. split; [apply tangent_dir; [assumption|lra]|].
  split; [apply tangent_dir; [assumption|lra]|]. split; [apply tangent_dir; [assumption|lra]|].
  split.
  { pose proof (ring_lower O _ _ rbp rbr psi b 0 0 Hb C) as E. cbn zeta in E.
    replace (rbr * 0 - rbp * 0 - (rbr - rbp) * tan b) with (- ((rbr - rbp) * tan b)) in E by ring.
    replace (vsub (dir O (psi + b)) (smul 0 (dir' O (psi + b)))) with (dir O (psi + b)) in E by vec_ring.
    rewrite E. vec_ring. }
  split.
  { pose proof (ring_upper O _ _ rbp rbr psi b 0 0 Hb C) as E. cbn zeta in E.
    replace (rbr * 0 - rbp * 0 - (rbr - rbp) * tan b) with (- ((rbr - rbp) * tan b)) in E by ring.
    replace (vadd (dir O (psi - b)) (smul 0 (dir' O (psi - b)))) with (dir O (psi - b)) in E by vec_ring.
    rewrite E. vec_ring. }
  intros x k.
  assert (KK : forall z, rbr * (z * pr) = pb * z) by (intros; rewrite PB; ring).
  assert (KK1 : forall z, rbp * (z * pp) = pb * z) by (intros; unfold pb; ring).
  split.
  - set (tp := psi + b - (g_angle (turned Tp np x) + IZR (m + k) * pp - Ap)).
    set (tr := psi + b - (g_angle (turned Tr nr x) + IZR k * pr - Ar)).
    assert (NO : normal_to (lower_flank (turned Tp np x) np rp Ap (m + k)) (dir' O (psi + b)) tp /\
                 normal_to (lower_flank (turned Tr nr x) nr rr Ar k) (dir' O (psi + b)) tr).
    { split.
      - replace O with (g_orient (turned Tp np x)) by assumption. apply lower_flank_normal.
        + cbn [turned g_orient]. rewrite Op. exact HO.
        + fold pp. replace (_ - (psi + b)) with 0 by (unfold tp; ring). apply sin_0.
      - replace O with (g_orient (turned Tr nr x)) by assumption. apply lower_flank_normal.
        + cbn [turned g_orient]. rewrite Or. exact HO.
        + fold pr. replace (_ - (psi + b)) with 0 by (unfold tr; ring). apply sin_0. }
    exists tp, tr. cbn zeta.
    split; [unfold tp; cbn [turned g_angle]; rewrite plus_IZR; fold pp; field; lra|].
    rewrite !lower_flank_eq. cbn [turned g_center g_orient g_scale]. rewrite Op, Or. fold pp pr.
    fold rbp rbr.
    change (g_angle Tp + x * pp) with (g_angle (turned Tp np x)).
    change (g_angle Tr + x * pr) with (g_angle (turned Tr nr x)).
    replace (g_angle (turned Tp np x) + IZR (m + k) * pp - Ap + tp) with (psi + b) by (unfold tp; ring).
    replace (g_angle (turned Tr nr x) + IZR k * pr - Ar + tr) with (psi + b) by (unfold tr; ring).
    split; [vec_ring|]. split; [vec_ring|].
    split; [|exact NO]. clear NO.
    rewrite (ring_lower O _ _ rbp rbr psi b tp tr Hb C). f_equal. f_equal.
    assert (S : rbr * tr - rbp * tp = (rbr - rbp) * b + rbr * Ar - rbp * Ap + e).
    { unfold tp, tr. cbn [turned g_angle]. fold pp pr. rewrite plus_IZR.
      replace (rbr * (psi + b - (g_angle Tr + x * pr + IZR k * pr - Ar)) -
        rbp * (psi + b - (g_angle Tp + x * pp + (IZR m + IZR k) * pp - Ap)))
      with ((rbr - rbp) * b + rbr * Ar - rbp * Ap
        - (rbr * g_angle Tr - rbp * g_angle Tp - (rbr - rbp) * psi)
        - rbr * (x * pr) + rbp * (x * pp) - rbr * (IZR k * pr) + rbp * (IZR k * pp)
        + rbp * (IZR m * pp)) by ring.
      rewrite PH, !KK, !KK1. ring. }
    unfold inv in EQ. lra.
  - set (tp := (g_angle (turned Tp np x) + IZR (m + k) * pp + Ap) - (psi - b)).
    set (tr := (g_angle (turned Tr nr x) + IZR k * pr + Ar) - (psi - b)).
    assert (NO : normal_to (upper_flank (turned Tp np x) np rp Ap (m + k)) (dir' O (psi - b)) tp /\
                 normal_to (upper_flank (turned Tr nr x) nr rr Ar k) (dir' O (psi - b)) tr).
    { split.
      - replace O with (g_orient (turned Tp np x)) by assumption. apply upper_flank_normal.
        + cbn [turned g_orient]. rewrite Op. exact HO.
        + fold pp. replace (_ - (psi - b)) with 0 by (unfold tp; ring). apply sin_0.
      - replace O with (g_orient (turned Tr nr x)) by assumption. apply upper_flank_normal.
        + cbn [turned g_orient]. rewrite Or. exact HO.
        + fold pr. replace (_ - (psi - b)) with 0 by (unfold tr; ring). apply sin_0. }
    exists tp, tr. cbn zeta.
    split; [unfold tp; cbn [turned g_angle]; rewrite plus_IZR; fold pp; field; lra|].
    rewrite !upper_flank_eq. cbn [turned g_center g_orient g_scale]. rewrite Op, Or. fold pp pr.
    fold rbp rbr.
    change (g_angle Tp + x * pp) with (g_angle (turned Tp np x)).
    change (g_angle Tr + x * pr) with (g_angle (turned Tr nr x)).
    replace (g_angle (turned Tp np x) + IZR (m + k) * pp + Ap - tp) with (psi - b) by (unfold tp; ring).
    replace (g_angle (turned Tr nr x) + IZR k * pr + Ar - tr) with (psi - b) by (unfold tr; ring).
    split; [vec_ring|]. split; [vec_ring|].
    split; [|exact NO]. clear NO.
    rewrite (ring_upper O _ _ rbp rbr psi b tp tr Hb C). f_equal. f_equal.
    assert (S : rbr * tr - rbp * tp = (rbr - rbp) * b + rbr * Ar - rbp * Ap - e).
    { unfold tp, tr. cbn [turned g_angle]. fold pp pr. rewrite plus_IZR.
      replace (rbr * (g_angle Tr + x * pr + IZR k * pr + Ar - (psi - b)) -
        rbp * (g_angle Tp + x * pp + (IZR m + IZR k) * pp + Ap - (psi - b)))
      with ((rbr - rbp) * b + rbr * Ar - rbp * Ap
        + (rbr * g_angle Tr - rbp * g_angle Tp - (rbr - rbp) * psi)
        + rbr * (x * pr) - rbp * (x * pp) + rbr * (IZR k * pr) - rbp * (IZR k * pp)
        - rbp * (IZR m * pp)) by ring.
      rewrite PH, !KK, !KK1. ring. }
    unfold inv in EQ. lra.
Qed.
