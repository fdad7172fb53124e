(** Geometry of meshing involute gears (for C45). *)
From Coq Require Import Nsatz Reals Lra Psatz Lia ZArith.
From Verif Require Import Num Vec Transform TransformProps Coords Gen GearMath GearLem MeshAngleProps.
Open Scope R_scope.

(** Flanks of tooth [k] of a gear with [n] teeth placed by [T]; [r] is the base radius before
    scaling, the involute starts at angle [- A] on the base circle; the other flank is the mirror
    image in the x axis (gggears_core.py mirrors the tooth curve in that way). *)
Definition mirror_y (p : vec) : vec := V (vx p) (- vy p) (vz p).
Definition lower_flank (T : gtransform) (n : Z) (r A : R) (k : Z) (t : R) : vec :=
  apply_gear_transform
    (mapp (rotz (IZR k * (2 * PI / IZR n))) (involute_circle t r (- A) ORIGIN 0)) T.
Definition upper_flank (T : gtransform) (n : Z) (r A : R) (k : Z) (t : R) : vec :=
  apply_gear_transform
    (mapp (rotz (IZR k * (2 * PI / IZR n))) (mirror_y (involute_circle t r (- A) ORIGIN 0))) T.

Lemma involute_circle_eq t r b : involute_circle t r b ORIGIN 0 = mapp (rotz (t + b)) (V r (- (r * t)) 0).
Proof. unfold involute_circle. vec_ring. Qed.

Lemma lower_flank_eq T n r A k t :
  let tau := g_angle T + IZR k * (2 * PI / IZR n) - A + t in
  lower_flank T n r A k t =
  vadd (g_center T) (smul (g_scale T * r)
    (vsub (dir (g_orient T) tau) (smul t (dir' (g_orient T) tau)))).
Proof.
  intros tau. unfold lower_flank. rewrite apply_gear_transform_eq, involute_circle_eq.
  rewrite <- !mapp_mmul. rewrite <- !mmul_assoc, !rotz_plus, mapp_mmul.
  replace (g_angle T + (IZR k * (2 * PI / IZR n) + (t + - A))) with tau by (unfold tau; ring).
  unfold dir, dir'. destruct T as [c O s a]. cbn [g_center g_orient g_scale]. destruct c, O.
  clearbody tau. vec_ring.
Qed.

Lemma upper_flank_eq T n r A k t :
  let tau := g_angle T + IZR k * (2 * PI / IZR n) + A - t in
  upper_flank T n r A k t =
  vadd (g_center T) (smul (g_scale T * r)
    (vadd (dir (g_orient T) tau) (smul t (dir' (g_orient T) tau)))).
Proof.
  intros tau. unfold upper_flank. rewrite apply_gear_transform_eq, involute_circle_eq.
  replace (mirror_y (mapp (rotz (t + - A)) (V r (- (r * t)) 0)))
    with (mapp (rotz (- (t + - A))) (V r (r * t) 0))
    by (unfold mirror_y; vec_simpl; rewrite cos_neg, sin_neg; apply vec_eq; vec_simpl; ring).
  rewrite <- !mapp_mmul. rewrite <- !mmul_assoc, !rotz_plus, mapp_mmul.
  replace (g_angle T + (IZR k * (2 * PI / IZR n) + - (t + - A))) with tau by (unfold tau; ring).
  unfold dir, dir'. destruct T as [c O s a]. cbn [g_center g_orient g_scale]. destruct c, O.
  clearbody tau. vec_ring.
Qed.

(** External gears.  Lower flanks touch (up to the gap) on the tangent at angle psi + a. *)
Lemma ext_lower O c1 c2 rb1 rb2 psi a t1 t2 :
  - PI / 2 < a < PI / 2 ->
  c1 = vadd c2 (smul ((rb1 + rb2) / cos a) (dir O psi)) ->
  let X := psi + a in
  let P1 := vadd c1 (smul rb1 (vsub (dir O (X + PI)) (smul t1 (dir' O (X + PI))))) in
  let P2 := vadd c2 (smul rb2 (vsub (dir O X) (smul t2 (dir' O X)))) in
  P2 = vadd P1 (smul ((rb1 + rb2) * tan a - rb1 * t1 - rb2 * t2) (dir' O X)).
Proof.
  intros Ha -> X P1 P2. pose proof (cos_pos_in a Ha). unfold P1, P2.
  rewrite dir_pi, dir'_pi.
  replace (dir O psi) with (dir O (X + - a)) by (f_equal; unfold X; ring).
  rewrite dir_plus, cos_neg, sin_neg. unfold tan.
  set (e := dir O X). set (n := dir' O X). destruct c2, e, n. clear P1 P2.
  apply vec_eq; vec_simpl; field; lra.
Qed.

Lemma ext_upper O c1 c2 rb1 rb2 psi a t1 t2 :
  - PI / 2 < a < PI / 2 ->
  c1 = vadd c2 (smul ((rb1 + rb2) / cos a) (dir O psi)) ->
  let Y := psi - a in
  let P1 := vadd c1 (smul rb1 (vadd (dir O (Y + PI)) (smul t1 (dir' O (Y + PI))))) in
  let P2 := vadd c2 (smul rb2 (vadd (dir O Y) (smul t2 (dir' O Y)))) in
  P1 = vadd P2 (smul ((rb1 + rb2) * tan a - rb1 * t1 - rb2 * t2) (dir' O Y)).
Proof.
  intros Ha -> Y P1 P2. pose proof (cos_pos_in a Ha). unfold P1, P2.
  rewrite dir_pi, dir'_pi.
  replace (dir O psi) with (dir O (Y + a)) by (f_equal; unfold Y; ring).
  rewrite dir_plus. unfold tan.
  set (e := dir O Y). set (n := dir' O Y). destruct c2, e, n. clear P1 P2.
  apply vec_eq; vec_simpl; field; lra.
Qed.

(** Ring gear (r) with a pinion (p) inside. *)
Lemma ring_lower O cp cr rbp rbr psi b tp tr :
  - PI / 2 < b < PI / 2 ->
  cp = vadd cr (smul ((rbr - rbp) / cos b) (dir O psi)) ->
  let X := psi + b in
  let P := vadd cp (smul rbp (vsub (dir O X) (smul tp (dir' O X)))) in
  let Q := vadd cr (smul rbr (vsub (dir O X) (smul tr (dir' O X)))) in
  P = vadd Q (smul (rbr * tr - rbp * tp - (rbr - rbp) * tan b) (dir' O X)).
Proof.
  intros Hb -> X P Q. pose proof (cos_pos_in b Hb). unfold P, Q.
  replace (dir O psi) with (dir O (X + - b)) by (f_equal; unfold X; ring).
  rewrite dir_plus, cos_neg, sin_neg. unfold tan.
  set (e := dir O X). set (n := dir' O X). destruct cr, e, n. clear P Q.
  apply vec_eq; vec_simpl; field; lra.
Qed.

Lemma ring_upper O cp cr rbp rbr psi b tp tr :
  - PI / 2 < b < PI / 2 ->
  cp = vadd cr (smul ((rbr - rbp) / cos b) (dir O psi)) ->
  let Y := psi - b in
  let P := vadd cp (smul rbp (vadd (dir O Y) (smul tp (dir' O Y)))) in
  let Q := vadd cr (smul rbr (vadd (dir O Y) (smul tr (dir' O Y)))) in
  Q = vadd P (smul (rbr * tr - rbp * tp - (rbr - rbp) * tan b) (dir' O Y)).
Proof.
  intros Hb -> Y P Q. pose proof (cos_pos_in b Hb). unfold P, Q.
  replace (dir O psi) with (dir O (Y + b)) by (f_equal; unfold Y; ring).
  rewrite dir_plus. unfold tan.
  set (e := dir O Y). set (n := dir' O Y). destruct cr, e, n. clear P Q.
  apply vec_eq; vec_simpl; field; lra.
Qed.

(** The phases after mesh_to in the plane case, with the contact direction given by [psi]. *)
Lemma ext_phase O c2 psi D T1 T2 n1 n2 :
  orthogonal O -> g_orient T1 = O -> g_orient T2 = O -> (0 < n1)%Z -> (0 < n2)%Z ->
  g_center T2 = c2 -> g_center T1 = vadd c2 (smul D (dir O psi)) -> / 10 ^ 12 <= D ->
  exists m : Z,
    (calc_mesh_angle T1 T2 (2 * PI / IZR n1) (2 * PI / IZR n2) false false - psi - PI)
      / (2 * PI / IZR n1) + (g_angle T2 - psi) / (2 * PI / IZR n2) = 1 / 2 + IZR m.
Proof.
  intros HO O1 O2 Hn1 Hn2 C2 C1 HD.
  pose proof PI_RGT_0. pose proof (IZR_pos _ Hn1). pose proof (IZR_pos _ Hn2).
  assert (P1 : 0 < 2 * PI / IZR n1) by (apply Rdiv_lt_0_compat; lra).
  assert (P2 : 0 < 2 * PI / IZR n2) by (apply Rdiv_lt_0_compat; lra).
  assert (D0 : 0 < D) by (assert (0 < / 10 ^ 12) by (apply Rinv_0_lt_compat; lra); lra).
  assert (CL : centre_line T1 T2 = smul D (dir O (psi + PI))).
  { unfold centre_line. rewrite C1, C2. rewrite dir_pi.
    replace (vsub c2 (vadd c2 (smul D (dir O psi)))) with (smul D (vopp (dir O psi))) by vec_ring.
    destruct (Rlt_dec _ _) as [L|L]; [exfalso|reflexivity].
    rewrite norm_smul, norm_vopp, norm_dir, Rabs_right in L by (assumption || lra). lra. }
  destruct (calc_mesh_angle_phase T1 T2 _ _ false false P1 P2) as (_ & _ & PH).
  destruct (PH eq_refl) as (m & E). rewrite CL, O1, O2 in E.
  replace (vopp (smul D (dir O (psi + PI)))) with (smul D (dir O psi)) in E
    by (rewrite dir_pi; vec_ring).
  destruct (angle_xy_dir O (psi + PI) D HO D0) as (j1 & E1).
  destruct (angle_xy_dir O psi D HO D0) as (j2 & E2). rewrite E1, E2 in E.
  exists (m + j1 * n1 + j2 * n2)%Z. rewrite !plus_IZR, !mult_IZR.
  set (ma := calc_mesh_angle _ _ _ _ _ _) in *. clearbody ma.
  assert (X1 : (ma - (psi + PI + 2 * IZR j1 * PI)) / (2 * PI / IZR n1) =
    (ma - psi - PI) / (2 * PI / IZR n1) - IZR j1 * IZR n1) by (field; lra).
  assert (X2 : (g_angle T2 - (psi + 2 * IZR j2 * PI)) / (2 * PI / IZR n2) =
    (g_angle T2 - psi) / (2 * PI / IZR n2) - IZR j2 * IZR n2) by (field; lra).
  lra.
Qed.

(** Ring meshes: [psi] is the direction from the ring's centre to the pinion's centre. *)
Lemma ring_phase O c2 psi D T1 T2 n1 n2 (ring1 ring2 : bool) :
  orthogonal O -> g_orient T1 = O -> g_orient T2 = O -> (0 < n1)%Z -> (0 < n2)%Z ->
  g_center T2 = c2 ->
  g_center T1 = vadd c2 (smul (if ring1 then - D else D) (dir O psi)) -> / 10 ^ 12 <= D ->
  orb ring1 ring2 = true ->
  exists m : Z,
    (calc_mesh_angle T1 T2 (2 * PI / IZR n1) (2 * PI / IZR n2) ring1 ring2 - psi)
      / (2 * PI / IZR n1) = (g_angle T2 - psi) / (2 * PI / IZR n2) + IZR m.
Proof.
  intros HO O1 O2 Hn1 Hn2 C2 C1 HD HR.
  pose proof PI_RGT_0. pose proof (IZR_pos _ Hn1). pose proof (IZR_pos _ Hn2).
  assert (P1 : 0 < 2 * PI / IZR n1) by (apply Rdiv_lt_0_compat; lra).
  assert (P2 : 0 < 2 * PI / IZR n2) by (apply Rdiv_lt_0_compat; lra).
  assert (D0 : 0 < D) by (assert (0 < / 10 ^ 12) by (apply Rinv_0_lt_compat; lra); lra).
  assert (CL : (if ring1 then centre_line T1 T2 else vopp (centre_line T1 T2)) = smul D (dir O psi)).
  { unfold centre_line. rewrite C1, C2.
    replace (vsub c2 (vadd c2 (smul (if ring1 then - D else D) (dir O psi))))
      with (smul (if ring1 then D else - D) (dir O psi)) by (destruct ring1; vec_ring).
    destruct (Rlt_dec _ _) as [L|L].
    - exfalso. rewrite norm_smul, norm_dir in L by assumption.
      destruct ring1; [rewrite Rabs_right in L by lra|rewrite Rabs_left in L by lra]; lra.
    - destruct ring1; [reflexivity|vec_ring]. }
  destruct (calc_mesh_angle_phase T1 T2 _ _ ring1 ring2 P1 P2) as (_ & PH & _).
  destruct (PH HR) as (m & E).
  replace (if ring1 then centre_line T1 T2 else if ring2 then vopp (centre_line T1 T2) else centre_line T1 T2)
    with (if ring1 then centre_line T1 T2 else vopp (centre_line T1 T2)) in E
    by (destruct ring1, ring2; try reflexivity; discriminate).
  rewrite CL, O1, O2 in E.
  destruct (angle_xy_dir O psi D HO D0) as (j & E1). rewrite E1 in E.
  exists (m + j * n1 - j * n2)%Z. rewrite minus_IZR, plus_IZR, !mult_IZR.
  set (ma := calc_mesh_angle _ _ _ _ _ _) in *. clearbody ma.
  assert (X1 : (ma - (psi + 2 * IZR j * PI)) / (2 * PI / IZR n1) =
    (ma - psi) / (2 * PI / IZR n1) - IZR j * IZR n1) by (field; lra).
  assert (X2 : (g_angle T2 - (psi + 2 * IZR j * PI)) / (2 * PI / IZR n2) =
    (g_angle T2 - psi) / (2 * PI / IZR n2) - IZR j * IZR n2) by (field; lra).
  lra.
Qed.
