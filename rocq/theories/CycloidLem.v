(** Geometry of cycloid flanks in contact (for C46). *)
From Coq Require Import Reals Lra Psatz Lia ZArith.
From Coquelicot Require Import Coquelicot.
From Verif Require Import Num Vec Transform TransformProps Coords Gen GearMath GearLem MeshAngleProps MeshLem MeshNormal MeshConj.
Open Scope R_scope.

(** Flank of tooth [k]: the cycloid of a circle of radius [|rc|] rolling outside ([rc > 0]) or
    inside ([rc < 0]) on the pitch circle, through the pitch circle point at angle [- pia]; the
    upper flank is the mirror image. *)
Definition cyc_flank (up : bool) (T : gtransform) (n : Z) (rp rc pia : R) (k : Z) (t : R) : vec :=
  let p := cycloid_circle t rp rc (- pia) ORIGIN 0 in
  apply_gear_transform (mapp (rotz (IZR k * (2 * PI / IZR n))) (if up then mirror_y p else p)) T.

Definition sgn (up : bool) : R := if up then -1 else 1.
Definition cyc_tau (up : bool) (T : gtransform) (n : Z) (pia : R) (k : Z) (t : R) : R :=
  g_angle T + IZR k * (2 * PI / IZR n) - sgn up * pia + sgn up * t.

Lemma cyc_flank_eq up T n rp rc pia k t :
  let tau := cyc_tau up T n pia k t in
  cyc_flank up T n rp rc pia k t =
  vadd (g_center T) (smul (g_scale T) (vsub (smul (rp + rc) (dir (g_orient T) tau))
    (smul rc (dir (g_orient T) (tau + sgn up * (t * rp / rc)))))).
Proof.
  intros tau. unfold cyc_flank. rewrite apply_gear_transform_eq.
  set (b := t * rp / rc).
  assert (E : (if up then mirror_y (cycloid_circle t rp rc (- pia) ORIGIN 0) else cycloid_circle t rp rc (- pia) ORIGIN 0)
    = mapp (rotz (sgn up * (t - pia))) (vsub (smul (rp + rc) RIGHT) (mapp (rotz (sgn up * b)) (smul rc RIGHT)))).
  { unfold cycloid_circle, sgn. fold b. destruct up.
    - replace (-1 * (t - pia)) with (- (t + - pia)) by ring. replace (-1 * b) with (- b) by ring.
      unfold mirror_y, rotz. rewrite !cos_neg, !sin_neg. apply vec_eq; vec_simpl; ring.
    - replace (1 * (t - pia)) with (t + - pia) by ring. rewrite Rmult_1_l. apply vec_eq; vec_simpl; ring. }
  cbn zeta. rewrite E. clear E. rewrite <- !mapp_mmul. rewrite <- !mmul_assoc, !rotz_plus, mapp_mmul.
  replace (g_angle T + (IZR k * (2 * PI / IZR n) + sgn up * (t - pia))) with tau by (unfold tau, cyc_tau; ring).
  clearbody tau b. unfold dir. rewrite cos_plus, sin_plus.
  unfold rotz. generalize (sin (sgn up * b)) (cos (sgn up * b)) (sin tau) (cos tau). intros sb cb st ct.
  destruct T as [c O s a]. cbn [g_center g_orient g_scale]. clear a. destruct c, O. apply vec_eq; vec_simpl; ring.
Qed.

(** The pitch point seen from a flank point: the normal passes through it. *)
Lemma dir_dir_angle O a b : orthogonal O -> dot (dir O a) (dir O b) = cos (a - b).
Proof. intros H. unfold dir. rewrite orthogonal_dot by exact H. vec_simpl. rewrite cos_minus. ring. Qed.

Lemma deriv_cyc (c a w g tau : R) (e rp rc t : R) : rc <> 0 -> w + e * t = tau -> g = t * rp / rc ->
  derivable_pt_lim (fun u : R => c + a * ((rp + rc) * (cos (w + e * u - tau) - cos (w + e * u - (tau + e * g)))
     - rc * (cos (w + e * u + e * (u * rp / rc) - tau) - cos (w + e * u + e * (u * rp / rc) - (tau + e * g))))) t 0.
Proof.
  intros Hc E Eg. apply is_derive_Reals. auto_derive; [exact I|].
  assert (X1 : w + e * t + - tau = 0) by lra.
  assert (X2 : w + e * t + - (tau + e * g) = - (e * g)) by lra.
  assert (X3 : w + e * t + e * (t * rp * / rc) + - tau = e * g) by (rewrite Eg; unfold Rdiv; lra).
  assert (X4 : w + e * t + e * (t * rp * / rc) + - (tau + e * g) = 0) by (rewrite Eg; unfold Rdiv; lra).
  rewrite X1, X2, X3, X4, sin_neg, sin_0. field. exact Hc.
Qed.

Lemma cyc_flank_normal up T n rp rc pia k t : orthogonal (g_orient T) -> rc <> 0 ->
  normal_to (cyc_flank up T n rp rc pia k)
    (vsub (cyc_flank up T n rp rc pia k t)
       (vadd (g_center T) (smul (g_scale T * rp) (dir (g_orient T) (cyc_tau up T n pia k t))))) t.
Proof.
  intros HO Hc. set (tau := cyc_tau up T n pia k t). set (g := t * rp / rc).
  set (w := g_angle T + IZR k * (2 * PI / IZR n) - sgn up * pia).
  assert (N : vsub (cyc_flank up T n rp rc pia k t) (vadd (g_center T) (smul (g_scale T * rp) (dir (g_orient T) tau)))
    = smul (g_scale T * rc) (vsub (dir (g_orient T) tau) (dir (g_orient T) (tau + sgn up * g)))).
  { rewrite cyc_flank_eq. cbn zeta. fold tau g. generalize (dir (g_orient T) tau) (dir (g_orient T) (tau + sgn up * g)) (g_center T) (g_scale T).
    clear. vec_ring. }
  rewrite N.
  apply (deriv_ext (fun u : R => dot (g_center T) (smul (g_scale T * rc) (vsub (dir (g_orient T) tau) (dir (g_orient T) (tau + sgn up * g))))
    + g_scale T * (g_scale T * rc) * ((rp + rc) * (cos (w + sgn up * u - tau) - cos (w + sgn up * u - (tau + sgn up * g)))
     - rc * (cos (w + sgn up * u + sgn up * (u * rp / rc) - tau) - cos (w + sgn up * u + sgn up * (u * rp / rc) - (tau + sgn up * g)))))).
  - intros u. rewrite cyc_flank_eq. cbn zeta. change (cyc_tau up T n pia k u) with (w + sgn up * u).
    rewrite <- !(dir_dir_angle (g_orient T)) by exact HO.
    generalize (dir (g_orient T) tau) (dir (g_orient T) (tau + sgn up * g)) (dir (g_orient T) (w + sgn up * u))
      (dir (g_orient T) (w + sgn up * u + sgn up * (u * rp / rc))) (g_center T) (g_scale T). clear. intros. vec_simpl. ring.
  - apply deriv_cyc; [exact Hc|unfold w, tau, cyc_tau; ring|reflexivity].
Qed.

(** ** Specification *)
(** A cycloid tooth: tooth number, pitch radius, radii of the inner and outer rolling circle,
    half tooth angle on the pitch circle (before scaling).  The parameter of the flank is the
    angle rolled from the pitch circle: outwards positive, inwards negative. *)
Record ctooth : Type := mkCT { ct_n : Z; ct_rp : R; ct_in : R; ct_out : R; ct_pia : R }.
Definition ct_rc (c : ctooth) (t : R) : R := if Rle_dec 0 t then ct_out c else - ct_in c.
Definition tooth_flank (up : bool) (T : gtransform) (c : ctooth) (k : Z) (t : R) : vec :=
  cyc_flank up T (ct_n c) (ct_rp c) (ct_rc c t) (ct_pia c) k t.
Definition spun (T : gtransform) (d : R) : gtransform := mkG (g_center T) (g_orient T) (g_scale T) (g_angle T + d).

(** The flanks share a point and their common normal there passes through [P]. *)
Definition touch (up : bool) (P : vec) (T1 : gtransform) (c1 : ctooth) (k1 : Z) (t1 : R)
    (T2 : gtransform) (c2 : ctooth) (k2 : Z) (t2 : R) : Prop :=
  tooth_flank up T1 c1 k1 t1 = tooth_flank up T2 c2 k2 t2 /\
  normal_to (cyc_flank up T1 (ct_n c1) (ct_rp c1) (ct_rc c1 t1) (ct_pia c1) k1) (vsub (tooth_flank up T1 c1 k1 t1) P) t1 /\
  normal_to (cyc_flank up T2 (ct_n c2) (ct_rp c2) (ct_rc c2 t2) (ct_pia c2) k2) (vsub (tooth_flank up T2 c2 k2 t2) P) t2.

(** External pair: there is a pitch point [P] such that for every roll [x] (pitches) and tooth
    pair, turning gear 1 further by the angle of [G] on its pitch circle one way or the other
    brings the lower or the upper flanks into contact; [G] is the play per flank. *)
Definition cycloid_external (T1 T2 : gtransform) (c1 c2 : ctooth) (G : R) : Prop :=
  let r1 := g_scale T1 * ct_rp c1 in let r2 := g_scale T2 * ct_rp c2 in
  exists (m : Z) (e e' : R) (P : vec),
    norm (vsub P (g_center T1)) = r1 /\ norm (vsub P (g_center T2)) = r2 /\
    smul r2 (vsub P (g_center T1)) = smul (- r1) (vsub P (g_center T2)) /\
    forall (x : R) (k : Z),
      let S1 := turned T1 (ct_n c1) x in let S2 := turned T2 (ct_n c2) (- x) in
      (exists t1 t2, t1 = (e - x + IZR k) * (2 * PI / IZR (ct_n c1)) /\ r1 * t1 + r2 * t2 = 0 /\
         touch false P (spun S1 (- G / r1)) c1 (m - k) t1 S2 c2 k t2) /\
      (exists t1 t2, t1 = (e' + x - IZR k) * (2 * PI / IZR (ct_n c1)) /\ r1 * t1 + r2 * t2 = 0 /\
         touch true P (spun S1 (G / r1)) c1 (m - k) t1 S2 c2 (k - 1) t2).

(** Pinion (p) in a ring (r), where the teeth of the tooth data are the spaces of the ring. *)
Definition cycloid_ring (Tp Tr : gtransform) (cp cr : ctooth) (G : R) : Prop :=
  let r1 := g_scale Tp * ct_rp cp in let r2 := g_scale Tr * ct_rp cr in
  exists (m : Z) (e e' : R) (P : vec),
    norm (vsub P (g_center Tp)) = r1 /\ norm (vsub P (g_center Tr)) = r2 /\
    smul r2 (vsub P (g_center Tp)) = smul r1 (vsub P (g_center Tr)) /\
    forall (x : R) (k : Z),
      let S1 := turned Tp (ct_n cp) x in let S2 := turned Tr (ct_n cr) x in
      (exists t1 t2, t1 = (e - x - IZR k) * (2 * PI / IZR (ct_n cp)) /\ r1 * t1 = r2 * t2 /\
         touch false P (spun S1 (- G / r1)) cp (m + k) t1 S2 cr k t2) /\
      (exists t1 t2, t1 = (e' + x + IZR k) * (2 * PI / IZR (ct_n cp)) /\ r1 * t1 = r2 * t2 /\
         touch true P (spun S1 (G / r1)) cp (m + k) t1 S2 cr k t2).

(** ** Contact *)
Lemma flank_world up T c k t : 
  let tau := cyc_tau up T (ct_n c) (ct_pia c) k t in
  tooth_flank up T c k t =
  vadd (g_center T) (vsub (smul (g_scale T * ct_rp c + g_scale T * ct_rc c t) (dir (g_orient T) tau))
    (smul (g_scale T * ct_rc c t) (dir (g_orient T) (tau + sgn up * (t * ct_rp c / ct_rc c t))))).
Proof.
  cbn zeta. unfold tooth_flank. rewrite cyc_flank_eq. cbn zeta.
  generalize (dir (g_orient T) (cyc_tau up T (ct_n c) (ct_pia c) k t))
    (dir (g_orient T) (cyc_tau up T (ct_n c) (ct_pia c) k t + sgn up * (t * ct_rp c / ct_rc c t))) (g_center T) (g_scale T)
    (ct_rp c) (ct_rc c t). clear. vec_ring.
Qed.

Lemma ct_rc_nz c t : 0 < ct_in c -> 0 < ct_out c -> ct_rc c t <> 0.
Proof. intros. unfold ct_rc. destruct (Rle_dec 0 t); lra. Qed.

Lemma ext_touch up O psi S1 S2 c1 c2 k1 k2 t1 t2 :
  orthogonal O -> g_orient S1 = O -> g_orient S2 = O ->
  let r1 := g_scale S1 * ct_rp c1 in let r2 := g_scale S2 * ct_rp c2 in
  0 < g_scale S1 -> 0 < g_scale S2 -> 0 < ct_rp c1 -> 0 < ct_rp c2 ->
  0 < ct_in c1 -> 0 < ct_in c2 -> 0 < ct_out c1 -> 0 < ct_out c2 ->
  g_scale S1 * ct_out c1 = g_scale S2 * ct_in c2 -> g_scale S1 * ct_in c1 = g_scale S2 * ct_out c2 ->
  g_center S1 = vadd (g_center S2) (smul (r1 + r2) (dir O psi)) ->
  cyc_tau up S1 (ct_n c1) (ct_pia c1) k1 t1 = psi + PI -> cyc_tau up S2 (ct_n c2) (ct_pia c2) k2 t2 = psi ->
  r1 * t1 + r2 * t2 = 0 ->
  touch up (vadd (g_center S2) (smul r2 (dir O psi))) S1 c1 k1 t1 S2 c2 k2 t2.
Proof.
  intros HO O1 O2 r1 r2 s1 s2 p1 p2 i1 i2 o1 o2 A B C X1 X2 Z.
  assert (Q1 : 0 < r1) by (apply Rmult_lt_0_compat; assumption).
  assert (Q2 : 0 < r2) by (apply Rmult_lt_0_compat; assumption).
  pose proof (ct_rc_nz c1 t1 i1 o1) as Z1. pose proof (ct_rc_nz c2 t2 i2 o2) as Z2.
  split; [|split].
  - rewrite !flank_world. cbn zeta. rewrite X1, X2, O1, O2, C. fold r1 r2.
    destruct (Req_dec t1 0) as [T|T].
    + assert (t2 = 0) by nra. subst t1 t2.
      replace (psi + PI + sgn up * (0 * ct_rp c1 / ct_rc c1 0)) with (psi + PI) by (field; exact Z1).
      replace (psi + sgn up * (0 * ct_rp c2 / ct_rc c2 0)) with psi by (field; exact Z2).
      rewrite dir_pi. generalize (dir O psi) (g_center S2) (g_scale S1 * ct_rc c1 0) (g_scale S2 * ct_rc c2 0) r1 r2. clear. vec_ring.
    + assert (OPP : g_scale S1 * ct_rc c1 t1 = - (g_scale S2 * ct_rc c2 t2)).
      { unfold ct_rc. destruct (Rle_dec 0 t1), (Rle_dec 0 t2); nra. }
      assert (ANG : t1 * ct_rp c1 / ct_rc c1 t1 = t2 * ct_rp c2 / ct_rc c2 t2).
      { apply Rmult_eq_reg_r with ((g_scale S1 * ct_rc c1 t1) * (g_scale S2 * ct_rc c2 t2)).
        - transitivity (r1 * t1 * (g_scale S2 * ct_rc c2 t2)); [unfold r1; field; exact Z1|].
          rewrite OPP. transitivity (- (r2 * t2) * (g_scale S2 * ct_rc c2 t2)); [f_equal; lra|]. unfold r2. field. exact Z2.
        - apply Rmult_integral_contrapositive_currified; apply Rmult_integral_contrapositive_currified; lra. }
      rewrite ANG, OPP. set (b := sgn up * _).
      replace (psi + PI + b) with (psi + b + PI) by ring. rewrite !dir_pi.
      generalize (dir O psi) (dir O (psi + b)) (g_center S2) (g_scale S2 * ct_rc c2 t2) r1 r2. clear. vec_ring.
  - pose proof (cyc_flank_normal up S1 (ct_n c1) (ct_rp c1) (ct_rc c1 t1) (ct_pia c1) k1 t1) as N.
    rewrite X1, O1 in N. specialize (N HO Z1). unfold tooth_flank.
    replace (vadd (g_center S2) (smul r2 (dir O psi))) with (vadd (g_center S1) (smul (g_scale S1 * ct_rp c1) (dir O (psi + PI)))); [exact N|].
    rewrite C, dir_pi. fold r1. generalize (dir O psi) (g_center S2) r1 r2. clear. vec_ring.
  - pose proof (cyc_flank_normal up S2 (ct_n c2) (ct_rp c2) (ct_rc c2 t2) (ct_pia c2) k2 t2) as N.
    rewrite X2, O2 in N. exact (N HO Z2).
Qed.

Lemma ring_touch up O psi S1 S2 c1 c2 k1 k2 t1 t2 :
  orthogonal O -> g_orient S1 = O -> g_orient S2 = O ->
  let r1 := g_scale S1 * ct_rp c1 in let r2 := g_scale S2 * ct_rp c2 in
  0 < g_scale S1 -> 0 < g_scale S2 -> 0 < ct_rp c1 -> 0 < ct_rp c2 ->
  0 < ct_in c1 -> 0 < ct_in c2 -> 0 < ct_out c1 -> 0 < ct_out c2 ->
  g_scale S1 * ct_out c1 = g_scale S2 * ct_out c2 -> g_scale S1 * ct_in c1 = g_scale S2 * ct_in c2 ->
  g_center S1 = vadd (g_center S2) (smul (r2 - r1) (dir O psi)) ->
  cyc_tau up S1 (ct_n c1) (ct_pia c1) k1 t1 = psi -> cyc_tau up S2 (ct_n c2) (ct_pia c2) k2 t2 = psi ->
  r1 * t1 = r2 * t2 ->
  touch up (vadd (g_center S2) (smul r2 (dir O psi))) S1 c1 k1 t1 S2 c2 k2 t2.
Proof.
  intros HO O1 O2 r1 r2 s1 s2 p1 p2 i1 i2 o1 o2 A B C X1 X2 Z.
  assert (Q1 : 0 < r1) by (apply Rmult_lt_0_compat; assumption).
  assert (Q2 : 0 < r2) by (apply Rmult_lt_0_compat; assumption).
  pose proof (ct_rc_nz c1 t1 i1 o1) as Z1. pose proof (ct_rc_nz c2 t2 i2 o2) as Z2.
  split; [|split].
  - rewrite !flank_world. cbn zeta. rewrite X1, X2, O1, O2, C. fold r1 r2.
    assert (OPP : g_scale S1 * ct_rc c1 t1 = g_scale S2 * ct_rc c2 t2).
    { unfold ct_rc. destruct (Rle_dec 0 t1), (Rle_dec 0 t2); nra. }
    assert (ANG : t1 * ct_rp c1 / ct_rc c1 t1 = t2 * ct_rp c2 / ct_rc c2 t2).
    { apply Rmult_eq_reg_r with ((g_scale S1 * ct_rc c1 t1) * (g_scale S2 * ct_rc c2 t2)).
      - transitivity (r1 * t1 * (g_scale S2 * ct_rc c2 t2)); [unfold r1; field; exact Z1|].
        rewrite OPP, Z. unfold r2. field. exact Z2.
      - apply Rmult_integral_contrapositive_currified; apply Rmult_integral_contrapositive_currified; lra. }
    rewrite ANG, OPP. set (b := sgn up * _).
    generalize (dir O psi) (dir O (psi + b)) (g_center S2) (g_scale S2 * ct_rc c2 t2) r1 r2. clear. vec_ring.
  - pose proof (cyc_flank_normal up S1 (ct_n c1) (ct_rp c1) (ct_rc c1 t1) (ct_pia c1) k1 t1) as N.
    rewrite X1, O1 in N. specialize (N HO Z1). unfold tooth_flank.
    replace (vadd (g_center S2) (smul r2 (dir O psi))) with (vadd (g_center S1) (smul (g_scale S1 * ct_rp c1) (dir O psi))); [exact N|].
    rewrite C. fold r1. generalize (dir O psi) (g_center S2) r1 r2. clear. vec_ring.
  - pose proof (cyc_flank_normal up S2 (ct_n c2) (ct_rp c2) (ct_rc c2 t2) (ct_pia c2) k2 t2) as N.
    rewrite X2, O2 in N. exact (N HO Z2).
Qed.

(** Both gears positive and properly sized. *)
Definition ct_ok (c : ctooth) : Prop :=
  (0 < ct_n c)%Z /\ 0 < ct_rp c /\ 0 < ct_in c /\ 0 < ct_out c.

Lemma ext_cycloid O psi T1 T2 c1 c2 G :
  orthogonal O -> g_orient T1 = O -> g_orient T2 = O -> ct_ok c1 -> ct_ok c2 ->
  0 < g_scale T1 -> 0 < g_scale T2 ->
  let r1 := g_scale T1 * ct_rp c1 in let r2 := g_scale T2 * ct_rp c2 in
  let p1 := 2 * PI / IZR (ct_n c1) in let p2 := 2 * PI / IZR (ct_n c2) in
  / 10 ^ 12 <= r1 + r2 -> r1 * p1 = r2 * p2 ->
  g_scale T1 * ct_out c1 = g_scale T2 * ct_in c2 -> g_scale T1 * ct_in c1 = g_scale T2 * ct_out c2 ->
  G = r1 * p1 / 2 - r1 * ct_pia c1 - r2 * ct_pia c2 ->
  g_center T1 = vadd (g_center T2) (smul (r1 + r2) (dir O psi)) ->
  g_angle T1 = calc_mesh_angle T1 T2 p1 p2 false false ->
  cycloid_external T1 T2 c1 c2 G.
Proof.
  intros HO O1 O2 (N1 & P1 & I1 & U1) (N2 & P2 & I2 & U2) S1 S2 r1 r2 p1 p2 RR PB A B EG C ANG.
  pose proof PI_RGT_0. pose proof (IZR_pos _ N1) as NN1. pose proof (IZR_pos _ N2) as NN2.
  assert (Q1 : 0 < r1) by (apply Rmult_lt_0_compat; assumption).
  assert (Q2 : 0 < r2) by (apply Rmult_lt_0_compat; assumption).
  assert (H1 : 0 < p1) by (apply Rdiv_lt_0_compat; lra). assert (H2 : 0 < p2) by (apply Rdiv_lt_0_compat; lra).
  destruct (ext_phase O (g_center T2) psi _ T1 T2 _ _ HO O1 O2 N1 N2 eq_refl C RR) as (m & PH).
  fold p1 p2 in PH. rewrite <- ANG in PH.
  set (a1 := g_angle T1) in *. set (a2 := g_angle T2) in *.
  assert (PHM : r1 * (a1 - psi - PI) + r2 * (a2 - psi) = r1 * p1 * (1 / 2 + IZR m)).
  { rewrite <- PH, Rmult_plus_distr_l.
    replace (r1 * p1 * ((a2 - psi) / p2)) with (r2 * p2 * ((a2 - psi) / p2)) by (rewrite <- PB; reflexivity).
    field. lra. }
  set (P := vadd (g_center T2) (smul r2 (dir O psi))).
  exists (- m)%Z, ((psi + PI - (a1 - G / r1) + ct_pia c1) / p1 + IZR m),
    ((a1 + G / r1 + ct_pia c1 - (psi + PI)) / p1 - IZR m), P.
  assert (V1 : vsub P (g_center T1) = smul (- r1) (dir O psi)).
  { unfold P. rewrite C. generalize (dir O psi) (g_center T2) r1 r2. clear. vec_ring. }
  assert (V2 : vsub P (g_center T2) = smul r2 (dir O psi)).
  { unfold P. generalize (dir O psi) (g_center T2) r1 r2. clear. vec_ring. }
  rewrite V1, V2, !norm_smul, !norm_dir by exact HO. fold r1 r2.
  split; [rewrite Rabs_left by lra; ring|]. split; [rewrite Rabs_right by lra; ring|].
  split; [rewrite !smul_smul; f_equal; ring|].
  intros x k.
  assert (MK : IZR (- m - k) = - IZR m - IZR k) by (rewrite minus_IZR, opp_IZR; ring).
  assert (GG : r1 * (G / r1) = G) by (field; lra).
  assert (GG' : r1 * (- G / r1) = - G) by (field; lra).
  split.
  - set (t1 := psi + PI - (a1 + x * p1 + - G / r1 + IZR (- m - k) * p1 - ct_pia c1)).
    set (t2 := psi - (a2 + - x * p2 + IZR k * p2 - ct_pia c2)).
    assert (Z : r1 * t1 + r2 * t2 = 0).
    { unfold t1, t2. rewrite MK.
      replace (r1 * (psi + PI - (a1 + x * p1 + - G / r1 + (- IZR m - IZR k) * p1 - ct_pia c1)) +
        r2 * (psi - (a2 + - x * p2 + IZR k * p2 - ct_pia c2))) with
        (- (r1 * (a1 - psi - PI) + r2 * (a2 - psi)) - r1 * (- G / r1) + r1 * ct_pia c1 + r2 * ct_pia c2
         - x * (r1 * p1 - r2 * p2) + IZR m * (r1 * p1) + IZR k * (r1 * p1 - r2 * p2)) by ring.
      rewrite PHM, PB, GG', EG, PB. field. }
    exists t1, t2. split; [unfold t1; rewrite MK; fold p1; field; lra|]. split; [exact Z|].
    change P with (vadd (g_center (turned T2 (ct_n c2) (- x))) (smul (g_scale (turned T2 (ct_n c2) (- x)) * ct_rp c2) (dir O psi))).
    apply ext_touch; cbn [spun turned g_orient g_scale g_center]; try assumption.
    + unfold cyc_tau, sgn. cbn [spun turned g_angle]. fold p1 a1. unfold t1. ring.
    + unfold cyc_tau, sgn. cbn [spun turned g_angle]. fold p2 a2. unfold t2. ring.
  - set (t1 := (a1 + x * p1 + G / r1 + IZR (- m - k) * p1 + ct_pia c1) - (psi + PI)).
    set (t2 := (a2 + - x * p2 + IZR (k - 1) * p2 + ct_pia c2) - psi).
    assert (Z : r1 * t1 + r2 * t2 = 0).
    { unfold t1, t2. rewrite MK, minus_IZR.
      replace (r1 * (a1 + x * p1 + G / r1 + (- IZR m - IZR k) * p1 + ct_pia c1 - (psi + PI)) +
        r2 * (a2 + - x * p2 + (IZR k - 1) * p2 + ct_pia c2 - psi)) with
        ((r1 * (a1 - psi - PI) + r2 * (a2 - psi)) + r1 * (G / r1) + r1 * ct_pia c1 + r2 * ct_pia c2
         + x * (r1 * p1 - r2 * p2) - IZR m * (r1 * p1) - IZR k * (r1 * p1 - r2 * p2) - r2 * p2) by ring.
      rewrite PHM, PB, GG, EG, PB. field. }
    exists t1, t2. split; [unfold t1; rewrite MK; fold p1; field; lra|]. split; [exact Z|].
    change P with (vadd (g_center (turned T2 (ct_n c2) (- x))) (smul (g_scale (turned T2 (ct_n c2) (- x)) * ct_rp c2) (dir O psi))).
    apply ext_touch; cbn [spun turned g_orient g_scale g_center]; try assumption.
    + unfold cyc_tau, sgn. cbn [spun turned g_angle]. fold p1 a1. unfold t1. ring.
    + unfold cyc_tau, sgn. cbn [spun turned g_angle]. fold p2 a2. unfold t2. ring.
Qed.

(** Ring; [psi] is the direction from the ring's centre to the pinion's. *)
Lemma ring_cycloid O psi Tp Tr cp cr G (m : Z) :
  orthogonal O -> g_orient Tp = O -> g_orient Tr = O -> ct_ok cp -> ct_ok cr ->
  0 < g_scale Tp -> 0 < g_scale Tr ->
  let r1 := g_scale Tp * ct_rp cp in let r2 := g_scale Tr * ct_rp cr in
  let p1 := 2 * PI / IZR (ct_n cp) in let p2 := 2 * PI / IZR (ct_n cr) in
  r1 * p1 = r2 * p2 ->
  g_scale Tp * ct_out cp = g_scale Tr * ct_out cr -> g_scale Tp * ct_in cp = g_scale Tr * ct_in cr ->
  G = r2 * ct_pia cr - r1 * ct_pia cp ->
  g_center Tp = vadd (g_center Tr) (smul (r2 - r1) (dir O psi)) ->
  (g_angle Tp - psi) / p1 = (g_angle Tr - psi) / p2 + IZR m ->
  cycloid_ring Tp Tr cp cr G.
Proof.
  intros HO O1 O2 (N1 & P1 & I1 & U1) (N2 & P2 & I2 & U2) S1 S2 r1 r2 p1 p2 PB A B EG C PH.
  pose proof PI_RGT_0. pose proof (IZR_pos _ N1) as NN1. pose proof (IZR_pos _ N2) as NN2.
  assert (Q1 : 0 < r1) by (apply Rmult_lt_0_compat; assumption).
  assert (Q2 : 0 < r2) by (apply Rmult_lt_0_compat; assumption).
  assert (H1 : 0 < p1) by (apply Rdiv_lt_0_compat; lra). assert (H2 : 0 < p2) by (apply Rdiv_lt_0_compat; lra).
  set (a1 := g_angle Tp) in *. set (a2 := g_angle Tr) in *.
  assert (PHM : r1 * (a1 - psi) = r2 * (a2 - psi) + r1 * p1 * IZR m).
  { transitivity (r1 * p1 * ((a1 - psi) / p1)); [field; lra|]. rewrite PH, Rmult_plus_distr_l.
    replace (r1 * p1 * ((a2 - psi) / p2)) with (r2 * p2 * ((a2 - psi) / p2)) by (rewrite <- PB; reflexivity).
    field. lra. }
  set (P := vadd (g_center Tr) (smul r2 (dir O psi))).
  exists (- m)%Z, ((psi - (a1 - G / r1) + ct_pia cp) / p1 + IZR m),
    ((a1 + G / r1 + ct_pia cp - psi) / p1 - IZR m), P.
  assert (V1 : vsub P (g_center Tp) = smul r1 (dir O psi)).
  { unfold P. rewrite C. generalize (dir O psi) (g_center Tr) r1 r2. clear. vec_ring. }
  assert (V2 : vsub P (g_center Tr) = smul r2 (dir O psi)).
  { unfold P. generalize (dir O psi) (g_center Tr) r1 r2. clear. vec_ring. }
  rewrite V1, V2, !norm_smul, !norm_dir by exact HO. fold r1 r2.
  split; [rewrite Rabs_right by lra; ring|]. split; [rewrite Rabs_right by lra; ring|].
  split; [rewrite !smul_smul; f_equal; ring|].
  intros x k.
  assert (MK : IZR (- m + k) = - IZR m + IZR k) by (rewrite plus_IZR, opp_IZR; ring).
  assert (GG : r1 * (G / r1) = G) by (field; lra).
  assert (GG' : r1 * (- G / r1) = - G) by (field; lra).
  split.
  - set (t1 := psi - (a1 + x * p1 + - G / r1 + IZR (- m + k) * p1 - ct_pia cp)).
    set (t2 := psi - (a2 + x * p2 + IZR k * p2 - ct_pia cr)).
    assert (Z : r1 * t1 = r2 * t2).
    { unfold t1, t2. rewrite MK.
      replace (r1 * (psi - (a1 + x * p1 + - G / r1 + (- IZR m + IZR k) * p1 - ct_pia cp))) with
        (- (r1 * (a1 - psi)) - r1 * (- G / r1) + r1 * ct_pia cp - (x + IZR k) * (r1 * p1) + IZR m * (r1 * p1)) by ring.
      rewrite PHM, PB, GG', EG. ring. }
    exists t1, t2. split; [unfold t1; rewrite MK; fold p1; field; lra|]. split; [exact Z|].
    change P with (vadd (g_center (turned Tr (ct_n cr) x)) (smul (g_scale (turned Tr (ct_n cr) x) * ct_rp cr) (dir O psi))).
    apply ring_touch; cbn [spun turned g_orient g_scale g_center]; try assumption.
    + unfold cyc_tau, sgn. cbn [spun turned g_angle]. fold p1 a1. unfold t1. ring.
    + unfold cyc_tau, sgn. cbn [spun turned g_angle]. fold p2 a2. unfold t2. ring.
  - set (t1 := (a1 + x * p1 + G / r1 + IZR (- m + k) * p1 + ct_pia cp) - psi).
    set (t2 := (a2 + x * p2 + IZR k * p2 + ct_pia cr) - psi).
    assert (Z : r1 * t1 = r2 * t2).
    { unfold t1, t2. rewrite MK.
      replace (r1 * (a1 + x * p1 + G / r1 + (- IZR m + IZR k) * p1 + ct_pia cp - psi)) with
        ((r1 * (a1 - psi)) + r1 * (G / r1) + r1 * ct_pia cp + (x + IZR k) * (r1 * p1) - IZR m * (r1 * p1)) by ring.
      rewrite PHM, PB, GG, EG. ring. }
    exists t1, t2. split; [unfold t1; rewrite MK; fold p1; field; lra|]. split; [exact Z|].
    change P with (vadd (g_center (turned Tr (ct_n cr) x)) (smul (g_scale (turned Tr (ct_n cr) x) * ct_rp cr) (dir O psi))).
    apply ring_touch; cbn [spun turned g_orient g_scale g_center]; try assumption.
    + unfold cyc_tau, sgn. cbn [spun turned g_angle]. fold p1 a1. unfold t1. ring.
    + unfold cyc_tau, sgn. cbn [spun turned g_angle]. fold p2 a2. unfold t2. ring.
Qed.
