(** Properties C88 (tangent arcs), C89 (fillets of the flank), C90 (tip reduction), C91 (profile with these features). *)
From Coq Require Import Reals List ZArith Lra Lia Psatz Bool.
From Coquelicot Require Import Coquelicot.
From Verif Require Import Num Vec Transform TransformProps Params Coords CoordsProps Interp Curve CurveLem CurveProps
  ArcLem ArcProps Chain ChainLem ChainProps GearMath RefLines RefLinesProps Profile ProfileLem ProfileProps Fillet.
Import ListNotations.
Open Scope R_scope.

(** ** Specification *)
(** The velocity of a moving point. *)
Definition velocity (f : R -> vec) (s : R) (v : vec) : Prop :=
  is_derive (fun u => vx (f u)) s (vx v) /\ is_derive (fun u => vy (f u)) s (vy v) /\
  is_derive (fun u => vz (f u)) s (vz v).
(** Two moving points pass through their places in the same direction. *)
Definition same_direction (f : R -> vec) (s : R) (g : R -> vec) (u : R) : Prop :=
  exists v k, velocity f s v /\ velocity g u (smul k v) /\ v <> ORIGIN /\ 0 < k.

(** ** Lemmas *)
Lemma cross_cross_l a b c : cross (cross a b) c = vsub (smul (dot a c) b) (smul (dot b c) a).
Proof. vec_ring. Qed.
Lemma cross_cross_r a b c : cross a (cross b c) = vsub (smul (dot a c) b) (smul (dot a b) c).
Proof. vec_ring. Qed.

Ltac vr := clear; vec_ring.

Lemma turn_frame u v : dot u u = 1 -> dot v v = 1 -> cross u v <> ORIGIN ->
  let z := normalize (cross u v) in let th := angle_between u v in
  dot z z = 1 /\ dot z u = 0 /\ 0 < th < PI /\ cross u v = smul (sin th) z /\
  v = vadd (smul (cos th) u) (smul (sin th) (cross z u)).
Proof.
  intros U W H z th.
  assert (NU : norm u = 1) by (apply norm_eq; [lra|rewrite U; ring]).
  assert (NV : norm v = 1) by (apply norm_eq; [lra|rewrite W; ring]).
  destruct (C14_angle_cos_sin u v) as (C & S). fold th in C, S. rewrite NU, NV, !Rmult_1_l in C, S.
  pose proof (norm_pos _ H) as NP. destruct (C14_angle_range u v) as (T0 & T1). fold th in T0, T1.
  assert (Z : dot z z = 1) by (apply normalize_dot; exact H).
  assert (CZ : cross u v = smul (sin th) z) by (rewrite S; apply normalize_eq; exact H).
  assert (ZU : dot z u = 0) by (unfold z, normalize; rewrite dot_smul_l, dot_comm, dot_cross_l; ring).
  split; [exact Z|]. split; [exact ZU|]. split.
  { assert (SP : 0 < sin th) by (rewrite S; exact NP).
    split.
    - destruct (Req_dec th 0) as [E|E]; [rewrite E, sin_0 in SP; lra|lra].
    - destruct (Req_dec th PI) as [E|E]; [rewrite E, sin_PI in SP; lra|lra]. }
  split; [exact CZ|].
  assert (E : smul (sin th) (cross z u) = vsub (smul (dot u u) v) (smul (dot v u) u)).
  { rewrite <- cross_cross_l, CZ. generalize (sin th) z. vr. }
  rewrite E, U, C, (dot_comm v u). generalize (dot u v). vr.
Qed.

(** An orthonormal frame [u], [e], [z] and a second direction [v] in the plane of the first two. *)
Definition arc_frame (p1 p2 u v c z e : vec) (r th : R) : Prop :=
  dot u u = 1 /\ dot z z = 1 /\ dot z u = 0 /\ 0 < th < PI /\ r <> 0 /\ e = cross z u /\
  v = vadd (smul (cos th) u) (smul (sin th) e) /\
  vsub p1 (smul r (cross u z)) = c /\ vsub p2 (smul r (cross v z)) = c.

Lemma frame_facts p1 p2 u v c z e r th : arc_frame p1 p2 u v c z e r th ->
  cross z e = smul (-1) u /\ cross e z = u /\ cross e u = smul (-1) z /\ dot e e = 1 /\ dot e u = 0 /\
  vsub p1 c = smul (- r) e /\ vsub p2 c = vadd (smul (r * sin th) u) (smul (- r * cos th) e).
Proof.
  intros (U & Z & ZU & T & R0 & EE & EV & C1 & C2).
  assert (EZ : cross e z = u).
  { rewrite EE, cross_cross_l, Z, (dot_comm u z), ZU. vr. }
  assert (UZ : cross u z = smul (-1) e) by (rewrite EE; vr).
  repeat apply conj.
  - rewrite EE, cross_cross_r, Z, ZU. vr.
  - exact EZ.
  - rewrite EE, cross_cross_l, ZU, U. vr.
  - transitivity (dot z z * dot u u - dot z u * dot z u); [rewrite EE; vr|]. rewrite Z, U, ZU. ring.
  - rewrite EE. vr.
  - rewrite <- C1, UZ. vr.
  - rewrite <- C2. replace (cross v z) with (vadd (smul (cos th) (cross u z)) (smul (sin th) (cross e z))) by (rewrite EV; vr).
    rewrite EZ, UZ. vr.
Qed.

Lemma arc_between p1 p2 u v c z e r th : arc_frame p1 p2 u v c z e r th ->
 
  let arc := from_2_point_center p1 p2 c 0 true in
  (forall s, c_eval arc s = vadd c (vadd (smul (r * sin (th * s)) u) (smul (- r * cos (th * s)) e))) /\
  c_length arc = Rabs r * th /\ fresh arc /\ c_act arc = true.
Proof.
  intros H. destruct (frame_facts _ _ _ _ _ _ _ _ _ H) as (ZE & EZ & EU & DE & UE & E1 & E2).
  destruct H as (U & Z & ZU & T & R0 & EE & EV & C1 & C2). cbv zeta.
  assert (SP : 0 < sin th) by (apply sin_gt_0; apply T).
  assert (RR : 0 < r * r) by nra.
  assert (CR : cross (vsub p1 c) (vsub p2 c) = smul (r * r * sin th) z).
  { rewrite E1, E2. transitivity (smul (- r * (r * sin th)) (cross e u)); [vr|]. rewrite EU. vr. }
  assert (DT : dot (vsub p1 c) (vsub p2 c) = r * r * cos th).
  { rewrite E1, E2, dot_smul_l, dot_comm, dot_vadd_l, !dot_smul_l, (dot_comm u e), DE, UE. ring. }
  assert (NZ : norm z = 1) by (apply norm_eq; [lra|rewrite Z; ring]).
  assert (NE : norm e = 1) by (apply norm_eq; [lra|rewrite DE; ring]).
  assert (NC : norm (cross (vsub p1 c) (vsub p2 c)) = r * r * sin th).
  { rewrite CR, norm_smul, NZ, Rabs_right by nra. ring. }
  assert (AN : angle_between (vsub p1 c) (vsub p2 c) = th).
  { unfold angle_between. rewrite NC, DT. apply arctan2_polar; lra. }
  assert (ZN : normalize (cross (vsub p1 c) (vsub p2 c)) = z).
  { unfold normalize. rewrite NC, CR. transitivity (smul (/ (r * r * sin th) * (r * r * sin th)) z); [vr|].
    rewrite Rinv_l by nra. apply smul_1. }
  assert (NA : norm (vsub p1 c) = Rabs r).
  { rewrite E1, norm_smul, NE, Rabs_Ropp. ring. }
  assert (AR : 0 < Rabs r) by (apply Rabs_pos_lt; exact R0).
  assert (XN : normalize (vsub p1 c) = smul (- (r / Rabs r)) e).
  { unfold normalize. rewrite NA, E1. unfold Rdiv. generalize (/ Rabs r). vr. }
  assert (RT : rotation (of_cols (normalize (vsub p1 c)) (cross z (normalize (vsub p1 c))) z)).
  { rewrite <- ZN. apply two_point_frame. rewrite CR. intros Q. apply (f_equal norm) in Q.
    rewrite norm_smul, NZ, norm_ORIGIN, Rabs_right in Q by nra. nra. }
  unfold from_2_point_center. rewrite AN, ZN, NA. replace (th + 0 * PI * 2) with th by ring. split; [|split; [|split]].
  - intros s. rewrite arc_frame_eval by exact RT. rewrite XN.
    replace (cross z (smul (- (r / Rabs r)) e)) with (smul (r / Rabs r) u).
    + transitivity (vadd c (smul (Rabs r * (r / Rabs r)) (vadd (smul (sin (th * s)) u) (smul (- cos (th * s)) e)))).
      * generalize (Rabs r) (r / Rabs r) (sin (th * s)) (cos (th * s)). vr.
      * replace (Rabs r * (r / Rabs r)) with r by (field; lra). generalize (sin (th * s)) (cos (th * s)). vr.
    + transitivity (smul (- (r / Rabs r)) (cross z e)); [|generalize (r / Rabs r); vr]. rewrite ZE. generalize (r / Rabs r). vr.
  - rewrite arc_frame_shape by exact RT. reflexivity.
  - rewrite arc_frame_shape by exact RT. apply new_fresh.
  - rewrite arc_frame_shape by exact RT. reflexivity.
Qed.

Lemma arc_between_facts p1 p2 u v c z e r th : arc_frame p1 p2 u v c z e r th ->
 
  let arc := from_2_point_center p1 p2 c 0 true in
  c_eval arc 0 = p1 /\ c_eval arc 1 = p2 /\ (forall s, norm (vsub (c_eval arc s) c) = Rabs r) /\
  velocity (c_eval arc) 0 (smul (r * th) u) /\ velocity (c_eval arc) 1 (smul (r * th) v).
Proof.
  intros H arc. destruct (arc_between _ _ _ _ _ _ _ _ _ H) as (EV1 & _). fold arc in EV1.
  destruct (frame_facts _ _ _ _ _ _ _ _ _ H) as (ZE & EZ & EU & DE & UE & E1 & E2).
  destruct H as (U & Z & ZU & T & R0 & EE & EV & C1 & C2).
  assert (VEL : forall s, velocity (c_eval arc) s (smul (r * th) (vadd (smul (cos (th * s)) u) (smul (sin (th * s)) e)))).
  { intros s. clearbody arc. clear - EV1.
    split; [|split]; (eapply is_derive_ext; [intros t; rewrite EV1; reflexivity|]);
      destruct c as [c1 c2 c3], u as [u1 u2 u3], e as [e1 e2 e3]; cbn [vx vy vz vadd smul]; auto_derive; try exact I; ring. }
  split; [|split; [|split; [|split]]].
  - rewrite EV1, Rmult_0_r, sin_0, cos_0. rewrite <- (vadd_vsub p1 c), E1. vr.
  - rewrite EV1, Rmult_1_r. rewrite <- (vadd_vsub p2 c), E2. generalize (sin th) (cos th). vr.
  - intros s. apply norm_eq; [apply Rabs_pos|]. rewrite EV1.
    replace (Rabs r * Rabs r) with (r * r) by (rewrite <- Rabs_mult, Rabs_right; nra).
    transitivity (r * r * (sin (th * s) * sin (th * s) * dot u u + cos (th * s) * cos (th * s) * dot e e
      - 2 * sin (th * s) * cos (th * s) * dot e u)).
    + generalize (sin (th * s)) (cos (th * s)). vr.
    + rewrite U, DE, UE. pose proof (sin2_cos2 (th * s)) as SC. unfold Rsqr in SC.
      transitivity (r * r * (sin (th * s) * sin (th * s) + cos (th * s) * cos (th * s))); [ring|]. rewrite SC. ring.
  - pose proof (VEL 0) as V0. rewrite Rmult_0_r, cos_0, sin_0 in V0.
    replace (smul (r * th) u) with (smul (r * th) (vadd (smul 1 u) (smul 0 e))) by vr. exact V0.
  - pose proof (VEL 1) as V1. rewrite Rmult_1_r, <- EV in V1. exact V1.
Qed.

Lemma normalize_r_ok v w : normalize_r v = Ok w -> v <> ORIGIN /\ w = normalize v.
Proof.
  unfold normalize_r. destruct (Req_EM_T (norm v) 0) as [E|E]; [discriminate|]. intros Q. injection Q as <-.
  split; [|reflexivity]. intros ->. apply E, norm_ORIGIN.
Qed.

Lemma centers_ok p1 p2 d1 d2 r c1 c2 : centers_of p1 p2 d1 d2 r = Ok (c1, c2) ->
  d1 <> ORIGIN /\ d2 <> ORIGIN /\ cross (normalize d1) (normalize d2) <> ORIGIN /\
  let z := normalize (cross (normalize d1) (normalize d2)) in
  c1 = vsub p1 (smul r (cross (normalize d1) z)) /\ c2 = vsub p2 (smul r (cross (normalize d2) z)).
Proof.
  unfold centers_of. destruct (normalize_r d1) as [t1|] eqn:E1; cbn [bind]; [|discriminate].
  destruct (normalize_r d2) as [t2|] eqn:E2; cbn [bind]; [|discriminate].
  destruct (normalize_r (cross t1 t2)) as [ax|] eqn:E3; cbn [bind]; [|discriminate].
  intros Q. apply Ok_inj in Q. injection Q as Q1 Q2.
  apply normalize_r_ok in E1, E2, E3. destruct E1 as (N1 & ->), E2 as (N2 & ->), E3 as (N3 & ->).
  repeat split; congruence.
Qed.

(** ** C88 *)
(** When the two centres computed by the code agree, the arc joins the two places, has the given radius, and its
    velocity at its ends is along the two (numerical) tangents: with them for a positive radius, against them for a
    negative one. *)
Theorem C88_tangent_arc n1 n2 r t1 t2 p1 p2 d1 d2 c :
  n_eval n1 t1 = Ok p1 -> n_eval n2 t2 = Ok p2 -> n_derivative n1 t1 = Ok d1 -> n_derivative n2 t2 = Ok d2 ->
  r <> 0 -> calc_centers n1 n2 r t1 t2 = Ok (c, c) ->
  exists arc th, tangent_arc n1 n2 r t1 t2 = Ok arc /\
    c_eval arc 0 = p1 /\ c_eval arc 1 = p2 /\ (forall s, norm (vsub (c_eval arc s) c) = Rabs r) /\
    velocity (c_eval arc) 0 (smul (r * th / norm d1) d1) /\ velocity (c_eval arc) 1 (smul (r * th / norm d2) d2) /\
    0 < th < PI /\ norm d1 * norm d2 * cos th = dot d1 d2 /\
    c_length arc = Rabs r * th /\ fresh arc /\ c_act arc = true.
Proof.
  intros P1 P2 D1 D2 R0 CC. pose proof CC as CO. unfold calc_centers in CO.
  rewrite P1, P2, D1, D2 in CO. cbn [bind] in CO. apply centers_ok in CO.
  destruct CO as (N1 & N2 & NX & C1 & C2).
  set (u := normalize d1) in *. set (v := normalize d2) in *.
  assert (U : dot u u = 1) by (apply normalize_dot; exact N1).
  assert (W : dot v v = 1) by (apply normalize_dot; exact N2).
  destruct (turn_frame u v U W NX) as (Z & ZU & T & CZ & EV).
  set (z := normalize (cross u v)) in *. set (th := angle_between u v) in *.
  assert (AF : arc_frame p1 p2 u v c z (cross z u) r th) by (repeat split; try tauto; congruence).
  destruct (arc_between_facts _ _ _ _ _ _ _ _ _ AF) as (E0 & E1 & RD & V0 & V1).
  destruct (arc_between _ _ _ _ _ _ _ _ _ AF) as (_ & LN & FR & AC).
  assert (MID : smul (/ 2) (vadd c c) = c) by (clear; destruct c; apply vec_eq; vec_simpl; field).
  exists (from_2_point_center p1 p2 c 0 true), th. split.
  { unfold tangent_arc. rewrite CC, P1, P2. cbn [bind fst snd]. rewrite MID. reflexivity. }
  pose proof (norm_pos d1 N1) as NP1. pose proof (norm_pos d2 N2) as NP2.
  split; [exact E0|]. split; [exact E1|]. split; [exact RD|]. split; [|split; [|split; [exact T|split]]].
  - replace (smul (r * th / norm d1) d1) with (smul (r * th) u) by (unfold u, normalize, Rdiv; generalize (/ norm d1); vr).
    exact V0.
  - replace (smul (r * th / norm d2) d2) with (smul (r * th) v) by (unfold v, normalize, Rdiv; generalize (/ norm d2); vr).
    exact V1.
  - destruct (C14_angle_cos_sin u v) as (CS & _). fold th in CS.
    assert (NU : norm u = 1) by (apply norm_eq; [lra|rewrite U; ring]).
    assert (NV : norm v = 1) by (apply norm_eq; [lra|rewrite W; ring]).
    rewrite NU, NV, !Rmult_1_l in CS. rewrite CS. unfold u, v, normalize. rewrite dot_smul_l, dot_smul_r. field. lra.
  - auto.
Qed.

(** What the code does with a solution that is not exact: the arc starts on the first curve, and its end misses the
    place on the second curve by the difference of the distances from the centre. *)
Theorem C88_gap n1 n2 r t1 t2 p1 p2 c1 c2 :
  n_eval n1 t1 = Ok p1 -> n_eval n2 t2 = Ok p2 -> calc_centers n1 n2 r t1 t2 = Ok (c1, c2) ->
  let c := smul (/ 2) (vadd c1 c2) in
  cross (vsub p1 c) (vsub p2 c) <> ORIGIN ->
  exists arc, tangent_arc n1 n2 r t1 t2 = Ok arc /\ c_eval arc 0 = p1 /\
    norm (vsub (c_eval arc 1) p2) = Rabs (norm (vsub p1 c) - norm (vsub p2 c)).
Proof.
  intros P1 P2 CC c HX. exists (from_2_point_center p1 p2 c 0 true). split.
  { unfold tangent_arc. rewrite CC, P1, P2. reflexivity. }
  set (a := vsub p1 c) in *. set (b := vsub p2 c) in *.
  destruct (cross_nz a b HX) as (NA & NB). pose proof (norm_pos a NA) as LA. pose proof (norm_pos b NB) as LB.
  unfold from_2_point_center. cbv zeta. fold a b. replace (angle_between a b + 0 * PI * 2) with (angle_between a b) by ring.
  pose proof (two_point_frame a b HX) as RT.
  assert (DU : dot (normalize a) (normalize a) = 1) by (apply normalize_dot; exact NA).
  assert (DV : dot (normalize b) (normalize b) = 1) by (apply normalize_dot; exact NB).
  assert (CS : cross (normalize a) (normalize b) = smul (/ norm a * / norm b) (cross a b))
    by (unfold normalize; generalize (/ norm a) (/ norm b); clear; vec_ring).
  assert (KP : 0 < / norm a * / norm b) by (apply Rmult_lt_0_compat; apply Rinv_0_lt_compat; assumption).
  assert (NX : cross (normalize a) (normalize b) <> ORIGIN).
  { rewrite CS. intros Q. apply HX. apply norm_zero. apply (f_equal norm) in Q. rewrite norm_smul, norm_ORIGIN, Rabs_right in Q by lra.
    nra. }
  destruct (turn_frame _ _ DU DV NX) as (_ & _ & _ & _ & EV).
  rewrite CS in EV. rewrite normalize_scale in EV by assumption.
  assert (AN : angle_between (normalize a) (normalize b) = angle_between a b).
  { unfold normalize. apply C14_angle_scale_invariant; apply Rinv_0_lt_compat; assumption. }
  rewrite AN in EV. split.
  - rewrite arc_frame_eval by exact RT. rewrite Rmult_0_r, cos_0, sin_0. replace p1 with (vadd a c) by (unfold a; apply vadd_vsub). f_equal.
    transitivity (smul (norm a) (normalize a)); [|symmetry; apply normalize_eq, NA].
    generalize (cross (normalize (cross a b)) (normalize a)) (norm a) (normalize a). clear. vec_ring.
  - rewrite arc_frame_eval by exact RT. rewrite Rmult_1_r, <- EV. replace p2 with (vadd b c) by (unfold b; apply vadd_vsub).
    replace (vsub (vadd (smul (norm a) (normalize b)) c) (vadd b c)) with (smul (norm a - norm b) (normalize b)).
    2: { replace (vadd b c) with (vadd (smul (norm b) (normalize b)) c) by (f_equal; symmetry; apply normalize_eq, NB).
         generalize (norm a) (norm b) (normalize b). clear. vec_ring. }
    rewrite norm_smul. replace (norm (normalize b)) with 1; [ring|]. symmetry. apply norm_eq; [lra|]. rewrite DV. ring.
Qed.

(** A line or an arc; the angle swept by an arc over the step of the numerical derivative is below half a turn. *)
Definition plain (c : curve) : Prop := fresh c /\ c_t0 c < c_t1 c /\
  ((exists p q, c_shape c = SLine p q /\ p <> q) \/
   (exists r a ce m, c_shape c = SArc r a ce m /\ orthogonal m /\ 0 < r /\ a <> 0 /\ Rabs a * (c_t1 c - c_t0 c) * DELTA < PI)).

Lemma sinc_pos x : x <> 0 -> Rabs x < PI -> 0 < sin x / x.
Proof.
  intros X H. apply Rabs_def2 in H. destruct (Rtotal_order x 0) as [L|[E|L]]; [|lra|].
  - replace (sin x / x) with (sin (- x) / (- x)) by (rewrite sin_neg; field; lra).
    apply Rdiv_lt_0_compat; [apply sin_gt_0; lra|lra].
  - apply Rdiv_lt_0_compat; [apply sin_gt_0; lra|lra].
Qed.

Lemma line_fresh_eval c p q s : fresh c -> c_shape c = SLine p q ->
  c_eval c s = vadd (smul (1 - (c_t0 c + (c_t1 c - c_t0 c) * s)) p) (smul (c_t0 c + (c_t1 c - c_t0 c) * s) q).
Proof.
  intros F E. destruct (fresh_line c p q F E) as (T & S' & _).
  unfold c_eval, c_fun. rewrite (s2t_two_points c s S' T), E. reflexivity.
Qed.
Lemma arc_fresh_at c r a ce m s : fresh c -> c_shape c = SArc r a ce m ->
  c_eval c s = let x := a * (c_t0 c + (c_t1 c - c_t0 c) * s) in
    vadd (smul r (vadd (smul (cos x) (col1 m)) (smul (sin x) (col2 m)))) ce.
Proof.
  intros F E. destruct (fresh_arc c r a ce m F E) as (T & S' & _).
  unfold c_eval, c_fun. rewrite (s2t_two_points c s S' T), E. apply arc_shape_eval.
Qed.

(** For lines and arcs the numerical derivative has exactly the direction of the velocity. *)
Theorem C88_numerical_tangent c t : plain c -> exists v k,
  velocity (c_eval c) t v /\ n_derivative (Prim c) t = Ok (smul k v) /\ 0 < k /\ v <> ORIGIN.
Proof.
  intros (F & T & [(p & q & E & NE)|(r & a & ce & m & E & O & R0 & A0 & AD)]).
  - pose proof (fun s => line_fresh_eval c p q s F E) as EV. set (t0 := c_t0 c) in *. set (d := c_t1 c - t0) in *.
    assert (D0 : 0 < d) by (unfold d; lra). clearbody d. exists (smul d (vsub q p)), 1.
    split; [|split; [|split; [lra|]]].
    + destruct p as [px py pz], q as [qx qy qz].
      split; [|split]; (eapply is_derive_ext; [intros s; rewrite EV; reflexivity|]); cbn [vx vy vz vadd smul vsub];
        auto_derive; try exact I; ring.
    + unfold n_derivative. cbn [n_eval bind]. rewrite !EV. f_equal. unfold DELTA. destruct p, q. apply vec_eq; vec_simpl; field.
    + intros Z. apply NE. apply (f_equal (smul (/ d))) in Z.
      assert (Z2 : vsub q p = ORIGIN).
      { transitivity (smul (/ d) (smul d (vsub q p))).
        - transitivity (smul (/ d * d) (vsub q p)); [|clear; generalize (/ d); vec_ring].
          rewrite Rinv_l by lra. symmetry. apply smul_1.
        - rewrite Z. clear. vec_ring. }
      rewrite <- (vadd_vsub q p), Z2. symmetry. apply vadd_0_l.
  - pose proof (fun s => arc_fresh_at c r a ce m s F E) as EV. cbv zeta in EV.
    set (t0 := c_t0 c) in *. set (d := c_t1 c - t0) in *. assert (D0 : 0 < d) by (unfold d; lra). clearbody d.
    set (x := a * (t0 + d * t)). set (y := a * d * DELTA).
    assert (DP : 0 < DELTA) by (unfold DELTA; lra).
    assert (Y0 : y <> 0) by (unfold y; apply Rmult_integral_contrapositive_currified; [apply Rmult_integral_contrapositive_currified|]; lra).
    assert (YP : Rabs y < PI) by (unfold y; rewrite !Rabs_mult, (Rabs_right d), (Rabs_right DELTA) by lra; exact AD).
    destruct (cols_dot m O) as (X1 & X2 & X12 & _).
    exists (smul (r * (a * d)) (vadd (smul (- sin x) (col1 m)) (smul (cos x) (col2 m)))), (sin y / y).
    split; [|split; [|split; [apply sinc_pos; assumption|]]].
    + destruct (col1 m) as [ax ay az], (col2 m) as [bx by_ bz], ce as [cx cy cz].
      split; [|split]; (eapply is_derive_ext; [intros s; rewrite EV; reflexivity|]); cbn [vx vy vz vadd smul vsub];
        unfold x; auto_derive; try exact I; ring.
    + unfold n_derivative. cbn [n_eval bind]. rewrite !EV. f_equal.
      replace (a * (t0 + d * (t + DELTA))) with (x + y) by (unfold x, y; ring).
      replace (a * (t0 + d * (t - DELTA))) with (x - y) by (unfold x, y; ring).
      rewrite cos_plus, cos_minus, sin_plus, sin_minus.
      transitivity (smul (r * (sin y / DELTA)) (vadd (smul (- sin x) (col1 m)) (smul (cos x) (col2 m)))).
      * generalize (col1 m) (col2 m) (sin x) (cos x) (sin y) (cos y). clear - DP. intros e f sx cx sy cy.
        destruct e, f, ce. apply vec_eq; vec_simpl; field; lra.
      * replace (sin y / DELTA) with (sin y / y * (a * d)).
        -- generalize (col1 m) (col2 m) (sin x) (cos x) (sin y / y). clear. vec_ring.
        -- unfold y in *. field. repeat split; lra || (intros Z; rewrite Z in Y0; lra).
    + intros Z. apply (f_equal (fun v => dot v v)) in Z.
      assert (Q : (r * (a * d)) * (r * (a * d)) = 0).
      { transitivity (dot (smul (r * (a * d)) (vadd (smul (- sin x) (col1 m)) (smul (cos x) (col2 m))))
                          (smul (r * (a * d)) (vadd (smul (- sin x) (col1 m)) (smul (cos x) (col2 m))))); [|rewrite Z; clear; vec_simpl; ring].
        transitivity (r * (a * d) * (r * (a * d)) * (sin x * sin x * dot (col1 m) (col1 m) + cos x * cos x * dot (col2 m) (col2 m)
           - 2 * sin x * cos x * dot (col1 m) (col2 m))); [|generalize (col1 m) (col2 m) (sin x) (cos x); clear; vec_ring].
        rewrite X1, X2, X12. pose proof (sin2_cos2 x) as SC. unfold Rsqr in SC.
        transitivity (r * (a * d) * (r * (a * d)) * (sin x * sin x + cos x * cos x)); [rewrite SC; ring|ring]. }
      apply Rmult_integral in Q. destruct Q as [Q|Q]; apply Rmult_integral in Q; (destruct Q as [Q|Q]; [lra|]);
        apply Rmult_integral in Q; destruct Q; lra.
Qed.

(** Hence, where the curve meeting the arc is a line or an arc, the joint is tangent. *)
Theorem C88_tangent_start c1 n2 r t1 t2 p2 d2 c :
  plain c1 -> n_eval n2 t2 = Ok p2 -> n_derivative n2 t2 = Ok d2 -> 0 < r ->
  calc_centers (Prim c1) n2 r t1 t2 = Ok (c, c) ->
  exists arc, tangent_arc (Prim c1) n2 r t1 t2 = Ok arc /\ same_direction (c_eval c1) t1 (c_eval arc) 0.
Proof.
  intros PL P2 D2 R0 CC. destruct (C88_numerical_tangent c1 t1 PL) as (v & k & V & D1 & K & NV).
  destruct (C88_tangent_arc (Prim c1) n2 r t1 t2 (c_eval c1 t1) p2 _ d2 c eq_refl P2 D1 D2 ltac:(lra) CC)
    as (arc & th & E & _ & _ & _ & V0 & _ & T & _).
  exists arc. split; [exact E|]. exists v, (r * th / norm (smul k v) * k).
  split; [exact V|]. split; [|split; [exact NV|]].
  - replace (smul (r * th / norm (smul k v) * k) v) with (smul (r * th / norm (smul k v)) (smul k v)); [exact V0|].
    generalize (r * th / norm (smul k v)). clear. vec_ring.
  - pose proof (norm_pos v NV). rewrite norm_smul, Rabs_right by lra.
    apply Rmult_lt_0_compat; [|exact K]. apply Rdiv_lt_0_compat; apply Rmult_lt_0_compat; lra.
Qed.
Theorem C88_tangent_end n1 c2 r t1 t2 p1 d1 c :
  plain c2 -> n_eval n1 t1 = Ok p1 -> n_derivative n1 t1 = Ok d1 -> 0 < r ->
  calc_centers n1 (Prim c2) r t1 t2 = Ok (c, c) ->
  exists arc, tangent_arc n1 (Prim c2) r t1 t2 = Ok arc /\ same_direction (c_eval c2) t2 (c_eval arc) 1.
Proof.
  intros PL P1 D1 R0 CC. destruct (C88_numerical_tangent c2 t2 PL) as (v & k & V & D2 & K & NV).
  destruct (C88_tangent_arc n1 (Prim c2) r t1 t2 p1 (c_eval c2 t2) d1 _ c P1 eq_refl D1 D2 ltac:(lra) CC)
    as (arc & th & E & _ & _ & _ & _ & V1 & T & _).
  exists arc. split; [exact E|]. exists v, (r * th / norm (smul k v) * k).
  split; [exact V|]. split; [|split; [exact NV|]].
  - replace (smul (r * th / norm (smul k v) * k) v) with (smul (r * th / norm (smul k v)) (smul k v)); [exact V1|].
    generalize (r * th / norm (smul k v)). clear. vec_ring.
  - pose proof (norm_pos v NV). rewrite norm_smul, Rabs_right by lra.
    apply Rmult_lt_0_compat; [|exact K]. apply Rdiv_lt_0_compat; apply Rmult_lt_0_compat; lra.
Qed.

(** ** Trimming keeps the joints *)
Definition usable (n : node) : Prop :=
  n_active n = true /\ wf n /\ List.Forall (fun c => fresh c /\ (2 <= c_ndiv c)%nat) (leaves n).

Lemma usable_fresh cs : List.Forall (fun c => fresh c /\ (2 <= c_ndiv c)%nat) cs -> List.Forall fresh cs.
Proof. apply Forall_impl. tauto. Qed.
Lemma joined_head c c' r : c_eval c' 1 = c_eval c 1 -> joined (c :: r) -> joined (c' :: r).
Proof. intros E H. destruct r; [exact I|]. destruct H as [H1 H2]. split; [congruence|exact H2]. Qed.
Lemma joined_last a c c' : c_eval c' 0 = c_eval c 0 -> joined (a ++ [c]) -> joined (a ++ [c']).
Proof.
  intros E. induction a as [|x a IH]; intros H; [exact I|]. destruct a as [|y a]; cbn in *; [split; [destruct H; congruence|exact I]|].
  destruct H as [H1 H2]. split; [exact H1|]. apply IH, H2.
Qed.
Lemma joined_pre a b : joined (a ++ b) -> joined a.
Proof. intros H. apply ChainProps.joined_app in H. tauto. Qed.
Lemma joined_post a b : joined (a ++ b) -> joined b.
Proof. intros H. apply ChainProps.joined_app in H. tauto. Qed.

Lemma start_cut n s d : usable n -> joined (leaves n) -> exists m c u, n_set_start false n s = Ok m /\
  joined (leaves m) /\ leaves m <> [] /\ n_eval n s = Ok (c_eval (hd d (leaves m)) 0) /\
  c_eval (last (leaves m) d) 1 = c_eval (last (leaves n) d) 1 /\
  List.Forall (fun c => fresh c /\ (2 <= c_ndiv c)%nat) (leaves m) /\ In c (leaves n) /\ hd d (leaves m) = set_start_on c u.
Proof.
  intros (A & W & F) J. destruct (set_start_spec n A W (usable_fresh _ F) false s) as (pre & c & post & u & m & L & S & L' & E & _).
  exists m, c, u. split; [exact S|]. rewrite L in F, J. apply Forall_app in F. destruct F as [_ F].
  inversion F as [|? ? (FC & NC) FP]; subst. destruct (C29_set_start_on c u FC NC) as (E0 & E1).
  rewrite L', E. apply joined_post in J. split; [apply joined_head with c; assumption|]. split; [discriminate|].
  cbn [hd]. split; [congruence|]. split; [|split; [|split; [rewrite L; apply in_app_iff; right; left|]; reflexivity]].
  - rewrite L. destruct post as [|x post].
    + rewrite last_last. exact E1.
    + replace (pre ++ c :: x :: post) with ((pre ++ [c]) ++ x :: post) by (rewrite <- app_assoc; reflexivity).
      change (last (set_start_on c u :: x :: post) d) with (last (x :: post) d).
      destruct (@exists_last _ (x :: post) ltac:(discriminate)) as (q & y & ->). rewrite app_assoc, !last_last. reflexivity.
  - constructor; [split; [apply set_start_fresh|]|exact FP]. unfold set_start_on. rewrite update_ndiv. exact NC.
Qed.

Lemma end_cut n s d : usable n -> joined (leaves n) -> exists m c u, n_set_end false n s = Ok m /\
  joined (leaves m) /\ leaves m <> [] /\ n_eval n s = Ok (c_eval (last (leaves m) d) 1) /\
  c_eval (hd d (leaves m)) 0 = c_eval (hd d (leaves n)) 0 /\
  List.Forall (fun c => fresh c /\ (2 <= c_ndiv c)%nat) (leaves m) /\ In c (leaves n) /\ last (leaves m) d = set_end_on c u.
Proof.
  intros (A & W & F) J. destruct (set_end_spec n A W (usable_fresh _ F) false s) as (pre & c & post & u & m & L & S & L' & E & _).
  exists m, c, u. split; [exact S|]. rewrite L in F, J. apply Forall_app in F. destruct F as [F0 F].
  inversion F as [|? ? (FC & NC) FP]; subst. destruct (C29_set_end_on c u FC NC) as (E1 & E0).
  rewrite L', E, last_last. replace (pre ++ c :: post) with ((pre ++ [c]) ++ post) in J by (rewrite <- app_assoc; reflexivity).
  apply joined_pre in J. split; [apply joined_last with c; assumption|]. split; [destruct pre; discriminate|].
  split; [congruence|]. split; [|split; [|split; [rewrite L; apply in_app_iff; right; left|]; reflexivity]].
  - rewrite L. destruct pre; [exact E0|reflexivity].
  - apply Forall_app. split; [exact F0|]. constructor; [split; [apply set_end_fresh|]|constructor].
    unfold set_end_on. rewrite update_ndiv. exact NC.
Qed.

(** Trimming never breaks the flank: whatever the solvers return, its pieces stay joined. *)
Lemma trim_tip_joined sv tooth ra tipf pitch t : usable tooth -> joined (leaves tooth) ->
  trim_tip sv tooth ra tipf pitch = Ok t -> joined (leaves t).
Proof.
  intros U J. unfold trim_tip. destruct (Rlt_dec 0 tipf); [intros Q; apply Ok_inj in Q; subst; exact J|].
  cbv zeta. match goal with |- context [match ?e with pair _ _ => _ end] => destruct e as [[ok x0] x1] end.
  destruct (n_eval tooth x0) as [p|]; cbn [bind]; [|discriminate].
  destruct (_ && _); intros Q; match type of Q with n_set_end _ _ ?s = _ => destruct (end_cut tooth s dummy_curve U J) as (m & c & u & S & JM & _) end;
    rewrite S in Q; apply Ok_inj in Q; subst; exact JM.
Qed.

Lemma flat_prims l : flat l -> map Prim (flat_map get_curves l) = l.
Proof. induction 1 as [|m l (c & ->) F IH]; [reflexivity|]. cbn. rewrite IH. reflexivity. Qed.

Lemma joined_mid a x b d : a <> [] -> b <> [] -> joined a -> joined b ->
  c_eval (last a d) 1 = c_eval x 0 -> c_eval x 1 = c_eval (hd d b) 0 -> joined (a ++ x :: b).
Proof.
  intros NA NB JA JB E1 E2. apply (joined_app a (x :: b)).
  - exact NA.
  - discriminate.
  - exact JA.
  - destruct b; [contradiction|]. split; assumption.
  - intros d'. cbn [hd]. rewrite <- E1. destruct (exists_last NA) as (q & y & ->). rewrite !last_last. reflexivity.
Qed.

Lemma calc_centers_inv n1 n2 r t1 t2 c : calc_centers n1 n2 r t1 t2 = Ok c ->
  exists p1 p2 d1 d2, n_eval n1 t1 = Ok p1 /\ n_eval n2 t2 = Ok p2 /\ n_derivative n1 t1 = Ok d1 /\ n_derivative n2 t2 = Ok d2.
Proof.
  unfold calc_centers. destruct (n_eval n1 t1); cbn [bind]; [|discriminate]. destruct (n_eval n2 t2); cbn [bind]; [|discriminate].
  destruct (n_derivative n1 t1); cbn [bind]; [|discriminate]. destruct (n_derivative n2 t2); cbn [bind]; [|discriminate].
  intros _. do 4 eexists. eauto.
Qed.

(** The arc of an exact solution. *)
Lemma exact_arc n1 n2 r t1 t2 c arc : tangent_arc n1 n2 r t1 t2 = Ok arc -> r <> 0 -> calc_centers n1 n2 r t1 t2 = Ok (c, c) ->
  n_eval n1 t1 = Ok (c_eval arc 0) /\ n_eval n2 t2 = Ok (c_eval arc 1) /\ fresh arc /\ c_act arc = true /\
  0 < c_length arc /\ (2 <= c_ndiv arc)%nat.
Proof.
  intros T R0 CC. destruct (calc_centers_inv _ _ _ _ _ _ CC) as (p1 & p2 & d1 & d2 & P1 & P2 & D1 & D2).
  destruct (C88_tangent_arc n1 n2 r t1 t2 p1 p2 d1 d2 c P1 P2 D1 D2 R0 CC) as (arc' & th & T' & E0 & E1 & _ & _ & _ & TH & _ & LN & F & A).
  rewrite T in T'. apply Ok_inj in T'. subst arc'.
  repeat split; try congruence; try assumption.
  - rewrite LN. apply Rmult_lt_0_compat; [apply Rabs_pos_lt; exact R0|lra].
  - unfold tangent_arc in T. rewrite CC, P1, P2 in T. cbn [bind] in T. apply Ok_inj in T. subst arc. unfold from_2_point_center, arc_from_frame.
    destruct (as_euler_zyx _) as [[yaw pitch] roll]. apply NDIV_2.
Qed.

Lemma fillet_curve_arc fs n r s1 s2 f : fillet_curve fs n r s1 s2 = Ok f -> tangent_arc n n r (af_t1 f) (af_t2 f) = Ok (af_arc f).
Proof.
  unfold fillet_curve. cbv zeta. match goal with |- context [match ?e with pair _ _ => _ end] => destruct e as [[ok x0] x1] end.
  destruct (tangent_arc n n r (s1 - x0) (s2 + x1)) as [arc|] eqn:E; cbn [bind]; [|discriminate].
  intros Q. apply Ok_inj in Q. subst f. exact E.
Qed.
Lemma calc_tangent_arc_arc fs n1 n2 r s1 s2 f : calc_tangent_arc fs n1 n2 r s1 s2 = Ok f ->
  tangent_arc n1 n2 r (af_t1 f) (af_t2 f) = Ok (af_arc f).
Proof.
  unfold calc_tangent_arc. destruct (fs_tan fs n1 n2 r s1 s2 0) as [[ok x0] x1].
  destruct (tangent_arc n1 n2 r (s1 - x0) (s2 + x1)) as [arc|] eqn:E; cbn [bind]; [|discriminate].
  intros Q. apply Ok_inj in Q. subst f. exact E.
Qed.

(** A filleted chain: the part before, the arc, the part after, joined to each other, between the old end points. *)
Theorem C88_fillet_chain fs l r s1 s2 f c :
  flat l -> usable (Chain true l) -> joined (leaves (Chain true l)) -> r <> 0 ->
  fillet_curve fs (Chain true l) r s1 s2 = Ok f -> calc_centers (Chain true l) (Chain true l) r (af_t1 f) (af_t2 f) = Ok (c, c) ->
  exists m A B, fillet_at_locations fs (Chain true l) r s1 s2 = Ok m /\ leaves m = A ++ af_arc f :: B /\
    A <> [] /\ B <> [] /\ joined (leaves m) /\
    (forall d, n_eval (Chain true l) (af_t1 f) = Ok (c_eval (last A d) 1) /\
       n_eval (Chain true l) (af_t2 f) = Ok (c_eval (hd d B) 0) /\
       c_eval (hd d (leaves m)) 0 = c_eval (hd d (leaves (Chain true l))) 0 /\
       c_eval (last (leaves m) d) 1 = c_eval (last (leaves (Chain true l)) d) 1).
Proof.
  set (n := Chain true l). intros FL U J R0 FC CC.
  pose proof (fillet_curve_arc _ _ _ _ _ _ FC) as TA.
  destruct (exact_arc _ _ _ _ _ _ _ TA R0 CC) as (E0 & E1 & FA & AA & LA & NA).
  destruct (end_cut n (af_t1 f) dummy_curve U J) as (m1 & c1 & u1 & S1 & J1 & N1 & P1 & H1 & F1 & _).
  destruct (start_cut n (af_t2 f) dummy_curve U J) as (m2 & c2 & u2 & S2 & J2 & N2 & P2 & H2 & F2 & _).
  destruct (flat_set_end _ _ _ _ _ FL S1) as (l1 & -> & FL1). destruct (flat_set_start _ _ _ _ _ FL S2) as (l2 & -> & FL2).
  change (leaves (Chain true ?x)) with (leaves_of x) in *. change (leaves n) with (leaves_of l) in *.
  set (l3 := l1 ++ Prim (af_arc f) :: l2).
  assert (L3 : leaves_of l3 = leaves_of l1 ++ af_arc f :: leaves_of l2).
  { unfold l3. rewrite leaves_app. f_equal. change (leaves_of (Prim (af_arc f) :: l2)) with (leaves (Prim (af_arc f)) ++ leaves_of l2).
    cbn [leaves]. rewrite AA. reflexivity. }
  assert (F3 : List.Forall fresh (leaves_of l3)).
  { rewrite L3. apply Forall_app. split; [apply usable_fresh, F1|]. constructor; [exact FA|apply usable_fresh, F2]. }
  exists (Chain true l3), (leaves_of l1), (leaves_of l2). change (leaves (Chain true l3)) with (leaves_of l3).
  split.
  { unfold fillet_at_locations. rewrite FC. cbn [bind]. rewrite S1. cbn [bind]. rewrite S2. cbn [bind get_curves].
    rewrite (flat_prims l1 FL1), (flat_prims l2 FL2). fold l3. unfold new_chain. f_equal.
    change (n_update (Chain true l3)) with (Chain true (map refresh l3)). rewrite refresh_list by exact F3. reflexivity. }
  split; [exact L3|]. split; [exact N1|]. split; [exact N2|].
  assert (X1 : c_eval (last (leaves_of l1) dummy_curve) 1 = c_eval (af_arc f) 0) by (rewrite P1 in E0; apply Ok_inj in E0; exact E0).
  assert (X2 : c_eval (af_arc f) 1 = c_eval (hd dummy_curve (leaves_of l2)) 0) by (rewrite P2 in E1; apply Ok_inj in E1; congruence).
  split; [rewrite L3; apply joined_mid with dummy_curve; assumption|].
  intros d. assert (LD : last (leaves_of l1) d = last (leaves_of l1) dummy_curve)
    by (destruct (exists_last N1) as (q & y & ->); rewrite !last_last; reflexivity).
  assert (HD : hd d (leaves_of l2) = hd dummy_curve (leaves_of l2)) by (destruct (leaves_of l2); [contradiction|reflexivity]).
  rewrite LD, HD. split; [exact P1|]. split; [exact P2|].
  assert (NL : leaves_of l <> []) by (apply (proj1 (active_leaves n)), U).
  rewrite L3. split.
  - destruct (leaves_of l1) as [|x q]; [contradiction|]. destruct (leaves_of l); [contradiction|]. exact H1.
  - replace (leaves_of l1 ++ af_arc f :: leaves_of l2) with ((leaves_of l1 ++ [af_arc f]) ++ leaves_of l2) by (rewrite <- app_assoc; reflexivity).
    destruct (exists_last N2) as (q & y & E). rewrite E, app_assoc, last_last. rewrite E, last_last in H2. rewrite H2.
    destruct (exists_last NL) as (q' & y' & ->). rewrite !last_last. reflexivity.
Qed.

(** *** A right angle, filleted with radius 1/4 *)
Definition corner_lines : list curve := [line_curve (V (-1) 0 0) ORIGIN true; line_curve ORIGIN (V 0 1 0) true].
Definition corner : node := Chain true (map Prim corner_lines).
Definition corner_solver : fsolver :=
  mkFs (fun _ _ _ s1 s2 _ => (true, s1 - 3 / 8, 5 / 8 - s2)) (fun _ _ _ _ => (true, 0, 0)) (fun _ _ _ => (true, 0)).

Lemma line_curve_length p q : c_length (line_curve p q true) = norm (vsub q p).
Proof.
  destruct (fresh_line (line_curve p q true) _ _ ltac:(apply new_fresh) eq_refl) as (_ & _ & ->).
  replace (Rabs _) with 1; [ring|]. cbn. rewrite Rabs_right; lra.
Qed.
Lemma line_usable p q : fresh (line_curve p q true) /\ (2 <= c_ndiv (line_curve p q true))%nat.
Proof. split; [apply new_fresh|apply NDIV_2]. Qed.

Lemma corner_lengths : c_length (line_curve (V (-1) 0 0) ORIGIN true) = 1 /\ c_length (line_curve ORIGIN (V 0 1 0) true) = 1.
Proof. rewrite !line_curve_length. split; apply norm_eq; try lra; vec_simpl; ring. Qed.
Lemma corner_usable : usable corner.
Proof.
  destruct corner_lengths as (L1 & L2).
  split; [reflexivity|]. split.
  - apply wf_chain. split.
    + change (0 < c_length (line_curve (V (-1) 0 0) ORIGIN true) + (c_length (line_curve ORIGIN (V 0 1 0) true) + 0)). lra.
    + constructor; [|constructor; [|constructor]]; intros _; [change (0 <= c_length (line_curve (V (-1) 0 0) ORIGIN true))|
        change (0 <= c_length (line_curve ORIGIN (V 0 1 0) true))]; lra.
  - constructor; [apply line_usable|constructor; [apply line_usable|constructor]].
Qed.
Lemma corner_eval s : n_eval corner s = Ok (if Rle_dec s (1 / 2) then V (2 * s - 1) 0 0 else V 0 (2 * s - 1) 0).
Proof.
  destruct corner_lengths as (L1 & L2). destruct corner_usable as (_ & W & _).
  unfold corner. rewrite C37_travel by exact W. f_equal.
  change (leaves_of (map Prim corner_lines)) with corner_lines.
  assert (T : total corner_lines = 2) by (unfold total, corner_lines; cbn [map lsum]; rewrite L1, L2; ring).
  rewrite T. unfold corner_lines. cbn [walk]. rewrite L1. unfold local. rewrite L1, L2.
  destruct (Req_EM_T 1 0); [lra|]. destruct (Rle_dec (s * 2) 1) as [H|H], (Rle_dec s (1 / 2)) as [G|G]; try lra;
    rewrite line_eval; apply vec_eq; vec_simpl; field.
Qed.
Lemma corner_derivative s : s < 1 / 2 - DELTA \/ 1 / 2 + DELTA < s ->
  n_derivative corner s = Ok (if Rle_dec s (1 / 2) then V 2 0 0 else V 0 2 0).
Proof.
  unfold n_derivative. rewrite !corner_eval. cbn [bind]. assert (0 < DELTA) by (unfold DELTA; lra).
  intros [K|K]; destruct (Rle_dec (s + DELTA) (1 / 2)), (Rle_dec (s - DELTA) (1 / 2)), (Rle_dec s (1 / 2)); try lra;
    f_equal; unfold DELTA; apply vec_eq; vec_simpl; field.
Qed.
Lemma normalize_r_axis k v : 0 < k -> dot v v = 1 -> normalize_r (smul k v) = Ok v.
Proof.
  intros K D. assert (N : norm v = 1) by (apply norm_eq; [lra|rewrite D; ring]).
  unfold normalize_r, normalize. rewrite norm_smul, N, Rabs_right by lra. destruct (Req_EM_T (k * 1) 0); [lra|]. f_equal.
  transitivity (smul (/ (k * 1) * k) v); [generalize (/ (k * 1)); clear; vec_ring|].
  replace (/ (k * 1) * k) with 1 by (field; lra). apply smul_1.
Qed.
Lemma corner_centers : calc_centers corner corner (1 / 4) (3 / 8) (5 / 8) = Ok (V (- 1 / 4) (1 / 4) 0, V (- 1 / 4) (1 / 4) 0).
Proof.
  unfold calc_centers. rewrite !corner_derivative by (unfold DELTA; lra). rewrite !corner_eval.
  destruct (Rle_dec (3 / 8) (1 / 2)); [|lra]. destruct (Rle_dec (5 / 8) (1 / 2)); [lra|]. cbn [bind]. unfold centers_of.
  replace (V 2 0 0) with (smul 2 RIGHT) by (apply vec_eq; vec_simpl; ring).
  replace (V 0 2 0) with (smul 2 UP) by (apply vec_eq; vec_simpl; ring).
  rewrite !normalize_r_axis by (try lra; vec_simpl; ring). cbn [bind].
  replace (cross RIGHT UP) with (smul 1 OUT) by (apply vec_eq; vec_simpl; ring).
  rewrite normalize_r_axis by (try lra; vec_simpl; ring). cbn [bind]. f_equal. f_equal; apply vec_eq; vec_simpl; field.
Qed.

Example C88_example : exists m A B f, fillet corner_solver corner (1 / 4) (1 / 2) = Ok m /\
  leaves m = A ++ af_arc f :: B /\ joined (leaves m) /\
  c_eval (af_arc f) 0 = V (- 1 / 4) 0 0 /\ c_eval (af_arc f) 1 = V 0 (1 / 4) 0 /\ c_length (af_arc f) = 1 / 4 * (PI / 2).
Proof.
  set (s1 := 1 / 2 + 1 / 4 / n_length corner). set (s2 := 1 / 2 - 1 / 4 / n_length corner).
  destruct (calc_centers_inv _ _ _ _ _ _ corner_centers) as (p1 & p2 & d1 & d2 & P1 & P2 & D1 & D2).
  destruct (C88_tangent_arc corner corner (1 / 4) (3 / 8) (5 / 8) _ _ _ _ _ P1 P2 D1 D2 ltac:(lra) corner_centers)
    as (arc & th & T & E0 & E1 & _ & _ & _ & TH & CT & LN & _).
  assert (FC : fillet_curve corner_solver corner (1 / 4) s1 s2 = Ok (mkAf arc (3 / 8) (5 / 8) true)).
  { unfold fillet_curve. cbn [corner_solver fs_tan fst]. 
    replace (s1 - (s1 - 3 / 8)) with (3 / 8) by ring. replace (s2 + (5 / 8 - s2)) with (5 / 8) by ring. rewrite T. reflexivity. }
  destruct (C88_fillet_chain corner_solver (map Prim corner_lines) (1 / 4) s1 s2 (mkAf arc (3 / 8) (5 / 8) true) (V (- 1 / 4) (1 / 4) 0)
    ltac:(constructor; [eexists; reflexivity|constructor; [eexists; reflexivity|constructor]]) corner_usable) as (m & A & B & FM & L & _ & _ & J & _).
  - split; [|exact I]. rewrite !line_eval. apply vec_eq; vec_simpl; ring.
  - lra.
  - exact FC.
  - exact corner_centers.
  - exists m, A, B, (mkAf arc (3 / 8) (5 / 8) true). cbn [af_arc] in *. split; [exact FM|]. split; [exact L|]. split; [exact J|].
    rewrite corner_eval in P1, P2. destruct (Rle_dec (3 / 8) (1 / 2)); [|lra]. destruct (Rle_dec (5 / 8) (1 / 2)); [lra|].
    apply Ok_inj in P1, P2. rewrite E0, E1, <- P1, <- P2. split; [apply vec_eq; cbn [vx vy vz]; lra|]. split; [apply vec_eq; cbn [vx vy vz]; lra|].
    rewrite corner_derivative in D1 by (unfold DELTA; lra). rewrite corner_derivative in D2 by (unfold DELTA; lra).
    destruct (Rle_dec (3 / 8) (1 / 2)); [|lra]. destruct (Rle_dec (5 / 8) (1 / 2)); [lra|]. apply Ok_inj in D1, D2. subst d1 d2.
    assert (N1 : norm (V 2 0 0) = 2) by (apply norm_eq; [lra|vec_simpl; ring]).
    assert (N2 : norm (V 0 2 0) = 2) by (apply norm_eq; [lra|vec_simpl; ring]). rewrite N1, N2 in CT.
    assert (C0 : cos th = 0) by (assert (dot (V 2 0 0) (V 0 2 0) = 0) by (clear; vec_simpl; ring); lra).
    rewrite LN, Rabs_right by lra. f_equal. pose proof PI_RGT_0. apply cos_inj; try lra; rewrite C0, cos_PI2; reflexivity.
Qed.

(** The solvers' success flag is not looked at: a failed search still yields a "filleted" chain, here one with a gap. *)
Definition failing_solver : fsolver :=
  mkFs (fun _ _ _ s1 s2 _ => (false, s1 - 3 / 8, 3 / 4 - s2)) (fun _ _ _ _ => (false, 0, 0)) (fun _ _ _ => (false, 0)).
Theorem C88_failed_search_refuted : exists fs l m, usable (Chain true l) /\ joined (leaves (Chain true l)) /\
  (forall n1 n2 r s1 s2 g, fst (fst (fs_tan fs n1 n2 r s1 s2 g)) = false) /\
  fillet fs (Chain true l) (1 / 4) (1 / 2) = Ok m /\ ~ joined (leaves m).
Proof.
  assert (CC : calc_centers corner corner (1 / 4) (3 / 8) (3 / 4) = Ok (V (- 1 / 4) (1 / 4) 0, V (- 1 / 4) (1 / 2) 0)).
  { unfold calc_centers. rewrite !corner_derivative by (unfold DELTA; lra). rewrite !corner_eval.
    destruct (Rle_dec (3 / 8) (1 / 2)); [|lra]. destruct (Rle_dec (3 / 4) (1 / 2)); [lra|]. cbn [bind]. unfold centers_of.
    replace (V 2 0 0) with (smul 2 RIGHT) by (apply vec_eq; vec_simpl; ring).
    replace (V 0 2 0) with (smul 2 UP) by (apply vec_eq; vec_simpl; ring).
    rewrite !normalize_r_axis by (try lra; vec_simpl; ring). cbn [bind].
    replace (cross RIGHT UP) with (smul 1 OUT) by (apply vec_eq; vec_simpl; ring).
    rewrite normalize_r_axis by (try lra; vec_simpl; ring). cbn [bind]. f_equal. f_equal; apply vec_eq; vec_simpl; field. }
  assert (P1 : n_eval corner (3 / 8) = Ok (V (- 1 / 4) 0 0)).
  { rewrite corner_eval. destruct (Rle_dec (3 / 8) (1 / 2)); [|lra]. f_equal. apply vec_eq; cbn [vx vy vz]; lra. }
  assert (P2 : n_eval corner (3 / 4) = Ok (V 0 (1 / 2) 0)).
  { rewrite corner_eval. destruct (Rle_dec (3 / 4) (1 / 2)); [lra|]. f_equal. apply vec_eq; cbn [vx vy vz]; lra. }
  assert (CE : smul (/ 2) (vadd (V (- 1 / 4) (1 / 4) 0) (V (- 1 / 4) (1 / 2) 0)) = V (- 1 / 4) (3 / 8) 0)
    by (apply vec_eq; vec_simpl; field).
  destruct (C88_gap _ _ _ _ _ _ _ _ _ P1 P2 CC) as (arc & T & A0 & A1).
  { rewrite CE. intros Q. apply (f_equal vz) in Q. revert Q. vec_simpl. lra. }
  rewrite CE in A1.
  assert (J : joined (leaves corner)).
  { split; [|exact I]. rewrite !line_eval. apply vec_eq; vec_simpl; ring. }
  set (s1 := 1 / 2 + 1 / 4 / n_length corner). set (s2 := 1 / 2 - 1 / 4 / n_length corner).
  assert (FC : fillet_curve failing_solver corner (1 / 4) s1 s2 = Ok (mkAf arc (3 / 8) (3 / 4) false)).
  { unfold fillet_curve. cbn [failing_solver fs_tan fst].
    replace (s1 - (s1 - 3 / 8)) with (3 / 8) by ring. replace (s2 + (3 / 4 - s2)) with (3 / 4) by ring. rewrite T. reflexivity. }
  destruct (end_cut corner (3 / 8) dummy_curve corner_usable J) as (m1 & c1 & u1 & S1 & J1 & N1 & Q1 & H1 & F1 & _).
  destruct (start_cut corner (3 / 4) dummy_curve corner_usable J) as (m2 & c2 & u2 & S2 & J2 & N2 & Q2 & H2 & F2 & _).
  assert (FL : flat (map Prim corner_lines)) by (constructor; [eexists; reflexivity|constructor; [eexists; reflexivity|constructor]]).
  destruct (flat_set_end _ _ _ _ _ FL S1) as (l1 & -> & FL1). destruct (flat_set_start _ _ _ _ _ FL S2) as (l2 & -> & FL2).
  assert (AA : c_act arc = true /\ fresh arc).
  { unfold tangent_arc in T. rewrite CC, P1, P2 in T. cbn [bind] in T. apply Ok_inj in T. subst arc. unfold from_2_point_center, arc_from_frame.
    destruct (as_euler_zyx _) as [[yaw pitch] roll]. split; [reflexivity|apply new_fresh]. }
  destruct AA as (AA & FA).
  change (leaves (Chain true ?x)) with (leaves_of x) in *.
  set (l3 := l1 ++ Prim arc :: l2).
  assert (L3 : leaves_of l3 = leaves_of l1 ++ arc :: leaves_of l2).
  { unfold l3. rewrite leaves_app. f_equal. change (leaves_of (Prim arc :: l2)) with (leaves (Prim arc) ++ leaves_of l2).
    cbn [leaves]. rewrite AA. reflexivity. }
  assert (F3 : List.Forall fresh (leaves_of l3)).
  { rewrite L3. apply Forall_app. split; [apply usable_fresh, F1|]. constructor; [exact FA|apply usable_fresh, F2]. }
  exists failing_solver, (map Prim corner_lines), (Chain true l3). fold corner.
  split; [exact corner_usable|]. split; [exact J|]. split; [reflexivity|]. split.
  { unfold fillet, fillet_at_locations. fold s1 s2. rewrite FC. cbn [bind af_t1 af_t2 af_arc]. rewrite S1. cbn [bind]. rewrite S2. cbn [bind get_curves].
    rewrite (flat_prims l1 FL1), (flat_prims l2 FL2). fold l3. unfold new_chain. f_equal.
    change (n_update (Chain true l3)) with (Chain true (map refresh l3)). rewrite refresh_list by exact F3. reflexivity. }
  change (leaves (Chain true l3)) with (leaves_of l3). rewrite L3. intros K. apply joined_post in K.
  destruct (leaves_of l2) as [|x q]; [contradiction|]. destruct K as (K & _). cbn [hd] in Q2. rewrite P2 in Q2. apply Ok_inj in Q2.
  rewrite K, <- Q2, vsub_diag, norm_ORIGIN in A1.
  assert (NA : norm (vsub (V (- 1 / 4) 0 0) (V (- 1 / 4) (3 / 8) 0)) = 3 / 8) by (apply norm_eq; [lra|vec_simpl; field]).
  rewrite NA in A1. symmetry in A1. apply Rabs_eq_0 in A1.
  pose proof (norm_sqr (vsub (V 0 (1 / 2) 0) (V (- 1 / 4) (3 / 8) 0))) as NS.
  replace (norm (vsub (V 0 (1 / 2) 0) (V (- 1 / 4) (3 / 8) 0))) with (3 / 8) in NS by lra.
  revert NS. vec_simpl. lra.
Qed.
