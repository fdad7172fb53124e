(** Property C107: facing flanks of meshed gears stay apart by exactly the requested gap: nothing else on the two
    flanks comes closer than the two facing points. *)
From Coq Require Import Nsatz Reals Lra Psatz Lia ZArith List Bool.
From Coquelicot Require Import Coquelicot.
From Verif Require Import Num Vec Transform TransformProps Params ParamsProps Coords CoordsProps Gen GenProps
  Interp Curve CurveLem CurveProps ArcLem ArcProps Chain GearMath Tooth Wrapper GearLem MeshAngleProps MeshLem
  MeshNormal MeshConj MeshProps MeshDistProps MeshContactProps.
Import ListNotations.
Open Scope R_scope.

(** ** Specification *)

(** A flank [P] from its base circle on ([u >= 0]: angle unrolled), continued below the base circle by the straight
    radial piece from the centre [c] ([-1 <= u < 0]). No code. *)
Definition whole_flank (c : vec) (P : R -> vec) (u : R) : vec :=
  if Rlt_dec u 0 then vadd c (smul (1 + u) (vsub (P 0) c)) else P u.

(** Two curves face each other with gap [g] at [t1], [t2]: that is the distance there, and it is the least distance
    between points with parameters from -1 to PI; away from ([t1], [t2]) the distance is larger. No code. *)
Definition face (F1 F2 : R -> vec) (g t1 t2 : R) : Prop :=
  norm (vsub (F2 t2) (F1 t1)) = g /\
  (forall u1 u2, -1 <= u1 <= PI -> -1 <= u2 <= PI -> g <= norm (vsub (F2 u2) (F1 u1))) /\
  (0 < t1 -> 0 < t2 -> forall u1 u2, -1 <= u1 <= PI -> -1 <= u2 <= PI ->
     norm (vsub (F2 u2) (F1 u1)) = g -> u1 = t1 /\ u2 = t2).

(** ** The involute lies on one side of its tangent rack line *)

Definition reach (t u : R) : R := if Rlt_dec u 0 then (1 + u) * sin t else u * cos (u - t) - sin (u - t).

Lemma sin_over d : 0 < d <= PI -> 0 < sin d - d * cos d.
Proof.
  intros H. pose proof PI_RGT_0 as PP. destruct (Rlt_le_dec d (PI / 2)) as [A|A].
  - pose proof (inv_pos d ltac:(lra)) as I. unfold inv in I. assert (C : 0 < cos d) by (apply cos_gt_0; lra).
    assert (0 < (tan d - d) * cos d) by (apply Rmult_lt_0_compat; assumption).
    replace (sin d - d * cos d) with ((tan d - d) * cos d); [assumption|]. unfold tan. field. lra.
  - destruct (Req_dec d (PI / 2)) as [->|N]; [rewrite sin_PI2, cos_PI2; lra|].
    assert (C : cos d < 0) by (apply cos_lt_0; lra). assert (S : 0 <= sin d) by (apply sin_ge_0; lra).
    assert (0 < d * (- cos d)) by (apply Rmult_lt_0_compat; lra). lra.
Qed.

Lemma reach_le t u : 0 <= t -> -1 <= u <= PI -> reach t u <= t.
Proof.
  intros HT HU. pose proof PI_RGT_0 as PP. unfold reach. destruct (Rlt_dec u 0) as [N|N].
  - destruct (Req_dec t 0) as [->|NT]; [rewrite sin_0; lra|]. pose proof (sin_lt_x t ltac:(lra)) as S.
    destruct (Rle_lt_dec (sin t) 0) as [A|A].
    + assert (0 <= (1 + u) * (- sin t)) by (apply Rmult_le_pos; lra). lra.
    + assert (0 <= (- u) * sin t) by (apply Rmult_le_pos; lra). lra.
  - apply Rnot_lt_le in N. pose proof (COS_bound (u - t)) as CB.
    destruct (Rtotal_order u t) as [L|[->|G]].
    + set (e := t - u). replace (u - t) with (- e) in * by (unfold e; ring). rewrite cos_neg, sin_neg in *.
      pose proof (sin_lt_x e ltac:(unfold e; lra)) as S.
      assert (0 <= u * (1 - cos e)) by (apply Rmult_le_pos; lra). unfold e in *. lra.
    + replace (t - t) with 0 by ring. rewrite cos_0, sin_0. lra.
    + set (d := u - t) in *. pose proof (sin_over d ltac:(unfold d; lra)) as S.
      assert (0 <= t * (1 - cos d)) by (apply Rmult_le_pos; lra).
      replace (u * cos d) with (t * cos d + d * cos d) by (unfold d; ring). lra.
Qed.

Lemma reach_eq t u : 0 < t -> -1 <= u <= PI -> reach t u = t -> u = t.
Proof.
  intros HT HU. pose proof PI_RGT_0 as PP. unfold reach. destruct (Rlt_dec u 0) as [N|N].
  - pose proof (sin_lt_x t ltac:(lra)) as S. intros E. exfalso.
    destruct (Rle_lt_dec (sin t) 0) as [A|A].
    + assert (0 <= (1 + u) * (- sin t)) by (apply Rmult_le_pos; lra). lra.
    + assert (0 <= (- u) * sin t) by (apply Rmult_le_pos; lra). lra.
  - apply Rnot_lt_le in N. pose proof (COS_bound (u - t)) as CB.
    destruct (Rtotal_order u t) as [L|[->|G]]; [|reflexivity|]; intros E; exfalso.
    + set (e := t - u) in *. replace (u - t) with (- e) in * by (unfold e; ring). rewrite cos_neg, sin_neg in *.
      pose proof (sin_lt_x e ltac:(unfold e; lra)) as S.
      assert (0 <= u * (1 - cos e)) by (apply Rmult_le_pos; lra). unfold e in *. lra.
    + set (d := u - t) in *. pose proof (sin_over d ltac:(unfold d; lra)) as S.
      assert (0 <= t * (1 - cos d)) by (apply Rmult_le_pos; lra).
      replace (u * cos d) with (t * cos d + d * cos d) in E by (unfold d; ring). lra.
Qed.

Lemma reach_self t : 0 <= t -> reach t t = t.
Proof.
  intros H. unfold reach. destruct (Rlt_dec t 0); [lra|]. replace (t - t) with 0 by ring. rewrite cos_0, sin_0. ring.
Qed.

(** ** The string frame *)

(** An involute about [c]: [sg = 1] unwinds as the lower flank does, [sg = -1] as the upper one. *)
Definition strung (O : mat) (c : vec) (rb sg w : R) (P : R -> vec) : Prop :=
  forall u, P u = vadd c (smul rb (vsub (dir O (w + sg * u)) (smul (sg * u) (dir' O (w + sg * u))))).

Lemma lower_strung T n r A k :
  strung (g_orient T) (g_center T) (g_scale T * r) 1 (g_angle T + IZR k * (2 * PI / IZR n) - A) (lower_flank T n r A k).
Proof. intros u. rewrite lower_flank_eq. cbv zeta. rewrite !Rmult_1_l. reflexivity. Qed.
Lemma upper_strung T n r A k :
  strung (g_orient T) (g_center T) (g_scale T * r) (-1) (g_angle T + IZR k * (2 * PI / IZR n) + A) (upper_flank T n r A k).
Proof.
  intros u. rewrite upper_flank_eq. cbv zeta.
  replace (g_angle T + IZR k * (2 * PI / IZR n) + A + -1 * u) with (g_angle T + IZR k * (2 * PI / IZR n) + A - u) by ring.
  set (p := dir _ _). set (q := dir' _ _). destruct p, q, (g_center T). vec_ring.
Qed.

(** The frame of a string: the foot and the direction are those of the angle [w + sg t]. *)
Definition framed (O : mat) (c : vec) (rb sg th : R) (B n : vec) (s : R) : Prop :=
  vsub B c = smul rb (dir O th) /\ n = smul (- (s * sg)) (dir' O th).

Lemma unit_eq a b : dot a a = 1 -> dot b b = 1 -> dot a b = 1 -> a = b.
Proof.
  intros A B C. assert (Z : dot (vsub a b) (vsub a b) = 0).
  { destruct a, b. vec_simpl. lra. }
  apply dot_zero in Z. destruct a as [a1 a2 a3], b as [b1 b2 b3]. unfold vsub in Z. cbn [vx vy vz] in Z. injection Z as Z1 Z2 Z3.
  f_equal; lra.
Qed.

Lemma dot_dir O a n : dot (dir O a) n = cos a * dot (col1 O) n + sin a * dot (col2 O) n.
Proof. unfold dir. destruct O, n. vec_simpl. ring. Qed.
Lemma dot_dir' O a n : dot (dir' O a) n = - sin a * dot (col1 O) n + cos a * dot (col2 O) n.
Proof. unfold dir'. destruct O, n. vec_simpl. ring. Qed.

Lemma strung_normal O c rb sg w P n t : sg * sg = 1 -> 0 < rb -> t <> 0 -> strung O c rb sg w P -> normal_to P n t ->
  dot (dir O (w + sg * t)) n = 0.
Proof.
  intros SG RB NT ST NO.
  assert (D : is_derive (fun u => dot (P u) n) t (rb * t * dot (dir O (w + sg * t)) n)).
  { apply is_derive_Reals. apply deriv_ext with (f := fun u => dot c n + rb * ((cos (w + sg * u) * dot (col1 O) n + sin (w + sg * u) * dot (col2 O) n) -
      sg * u * (- sin (w + sg * u) * dot (col1 O) n + cos (w + sg * u) * dot (col2 O) n))).
    { intros u. rewrite ST, <- dot_dir, <- dot_dir'. set (p := dir _ _). set (q := dir' _ _). destruct p, q, c, n. vec_simpl; ring. }
    apply is_derive_Reals. auto_derive; [exact I|]. rewrite dot_dir. set (x := dot (col1 O) n). set (y := dot (col2 O) n).
    set (cc := cos _). set (ss := sin _). 
    replace (rb * t * (cc * x + ss * y)) with (rb * (sg * sg) * t * (cc * x + ss * y)) by (rewrite SG; ring). ring. }
  apply is_derive_Reals in D. pose proof (uniqueness_limite _ _ _ _ D NO) as E.
  apply Rmult_integral in E. destruct E as [E|E]; [|exact E]. apply Rmult_integral in E. lra.
Qed.

Lemma frame_found O c rb sg w P t B n s : orthogonal O -> 0 < rb -> sg * sg = 1 -> s * s = 1 ->
  strung O c rb sg w P -> line_tangent c (col3 O) B n rb -> norm n = 1 -> t <> 0 ->
  P t = vadd B (smul (s * rb * t) n) -> normal_to P n t -> framed O c rb sg (w + sg * t) B n s.
Proof.
  intros HO RB SG SS ST (_ & BN & _ & _) NN NT EP NO.
  pose proof (strung_normal _ _ _ _ _ _ _ _ SG RB NT ST NO) as D0. set (th := w + sg * t) in *.
  assert (DN : dot n n = 1) by (rewrite <- norm_sqr, NN; ring).
  pose proof (ST t) as E. fold th in E. rewrite EP in E.
  pose proof (dir'_dot O th HO) as D1.
  assert (D2 : dot (dir' O th) n = - (s * sg)).
  { assert (X : dot (vsub (vadd B (smul (s * rb * t) n)) c) n = s * rb * t).
    { replace (dot (vsub (vadd B (smul (s * rb * t) n)) c) n) with (dot (vsub B c) n + s * rb * t * dot n n)
        by (destruct B, c, n; vec_simpl; ring). rewrite BN, DN. ring. }
    rewrite E in X.
    replace (dot (vsub (vadd c (smul rb (vsub (dir O th) (smul (sg * t) (dir' O th))))) c) n)
      with (rb * (dot (dir O th) n - sg * t * dot (dir' O th) n)) in X
      by (set (p := dir O th); set (q := dir' O th); destruct p, q, c, n; vec_simpl; ring).
    rewrite D0 in X. set (q := dot (dir' O th) n) in *.
    assert (Y : (rb * t) * (sg * q + s) = 0) by lra.
    apply Rmult_integral in Y. destruct Y as [Y|Y]; [apply Rmult_integral in Y; lra|].
    replace q with (sg * sg * q) by (rewrite SG; ring). replace (sg * sg * q) with (sg * (sg * q)) by ring.
    replace (sg * q) with (- s) by lra. ring. }
  assert (EN : n = smul (- (s * sg)) (dir' O th)).
  { apply unit_eq; [exact DN| |].
    - rewrite dot_smul_l, dot_smul_r, D1. replace (- (s * sg) * (- (s * sg) * 1)) with ((s * s) * (sg * sg)) by ring.
      rewrite SS, SG. ring.
    - rewrite dot_smul_r, dot_comm, D2. replace (- (s * sg) * - (s * sg)) with ((s * s) * (sg * sg)) by ring.
      rewrite SS, SG. ring. }
  split; [|exact EN].
  assert (EB : vsub B c = vsub (smul rb (vsub (dir O th) (smul (sg * t) (dir' O th)))) (smul (s * rb * t) n)).
  { clear - E. set (y := smul rb _) in *. clearbody y. destruct B as [b1 b2 b3], c as [c1 c2 c3], n as [n1 n2 n3], y as [y1 y2 y3]. unfold vadd, vsub, smul in *. cbn [vx vy vz] in *.
    injection E as E1 E2 E3. f_equal; lra. }
  rewrite EB, EN. set (p := dir O th). set (q := dir' O th). clearbody p q. clear - SS.
  replace (smul (s * rb * t) (smul (- (s * sg)) q)) with (smul (- (rb * t * sg) * (s * s)) q) by (destruct q; vec_ring).
  rewrite SS. destruct p, q. vec_ring.
Qed.

Lemma frame_again O c rb sg w P t B n s th : orthogonal O -> 0 < rb -> sg * sg = 1 -> s * s = 1 ->
  strung O c rb sg w P -> framed O c rb sg th B n s -> P t = vadd B (smul (s * rb * t) n) ->
  framed O c rb sg (w + sg * t) B n s.
Proof.
  intros HO RB SG SS ST (FB & FN) EP. set (t' := w + sg * t).
  pose proof (ST t) as E. fold t' in E. rewrite EP in E. set (d := t' - th).
  assert (V : smul rb (vsub (dir O t') (smul (sg * t) (dir' O t'))) = vsub (smul rb (dir O th)) (smul (rb * sg * t) (dir' O th))).
  { assert (X : smul rb (vsub (dir O t') (smul (sg * t) (dir' O t'))) = vadd (vsub B c) (smul (s * rb * t) n)).
    { clear - E. set (y := smul rb _) in *. clearbody y. destruct B as [b1 b2 b3], c as [c1 c2 c3], n as [n1 n2 n3], y as [y1 y2 y3]. unfold vadd, vsub, smul in *. cbn [vx vy vz] in *.
      injection E as E1 E2 E3. f_equal; lra. }
    rewrite X, FB, FN. set (p := dir O th). set (q := dir' O th). clearbody p q. clear - SS.
    replace (smul (s * rb * t) (smul (- (s * sg)) q)) with (smul (- (rb * t * sg) * (s * s)) q) by (destruct q; vec_ring).
    rewrite SS. destruct p, q. vec_ring. }
  assert (A1 : cos d + sg * t * sin d = 1).
  { apply (f_equal (fun v => dot v (dir O th))) in V.
    rewrite !dot_vsub_l, !dot_smul_l, !dot_vsub_l, !dot_smul_l in V. rewrite (dir_dot O th HO) in V.
    rewrite (dot_comm (dir' O t')), (dot_comm (dir' O th)), (dir_dir'_dot O th HO), (dir_dir'_angle O th t' HO) in V.
    replace (dot (dir O t') (dir O th)) with (cos d) in V.
    2:{ unfold d, dir. rewrite orthogonal_dot by exact HO. vec_simpl. rewrite cos_minus. ring. }
    replace (th - t') with (- d) in V by (unfold d; ring). rewrite sin_neg in V.
    apply Rmult_eq_reg_l with rb; lra. }
  assert (A2 : sin d - sg * t * cos d = - (sg * t)).
  { apply (f_equal (fun v => dot v (dir' O th))) in V.
    rewrite !dot_vsub_l, !dot_smul_l, !dot_vsub_l, !dot_smul_l in V.
    rewrite (dir'_dot O th HO), (dir_dir'_dot O th HO), (dir_dir'_angle O t' th HO), (dir'_dir'_angle O t' th HO) in V.
    fold d in V. apply Rmult_eq_reg_l with rb; lra. }
  pose proof (sin2_cos2 d) as SC. unfold Rsqr in SC. set (tt := sg * t) in *.
  assert (A3 : cos d - tt * sin d = 1).
  { transitivity (cos d * (cos d + tt * sin d) + sin d * (sin d - tt * cos d)); [rewrite A1, A2; ring|].
    rewrite <- SC. ring. }
  assert (CD : cos d = 1) by lra. assert (SD : sin d = 0) by (rewrite CD in A2; lra).
  assert (TT : t' = th + d) by (unfold d; ring).
  unfold framed. rewrite TT, dir_plus, dir'_plus, CD, SD.
  replace (vadd (smul 1 (dir O th)) (smul 0 (dir' O th))) with (dir O th) by (set (p := dir O th); set (q := dir' O th); destruct p, q; vec_ring).
  replace (vsub (smul 1 (dir' O th)) (smul 0 (dir O th))) with (dir' O th) by (set (p := dir O th); set (q := dir' O th); destruct p, q; vec_ring).
  split; assumption.
Qed.

Lemma dot_whole O c rb sg w P t B n s : orthogonal O -> (sg = 1 \/ sg = -1) ->
  strung O c rb sg w P -> framed O c rb sg (w + sg * t) B n s ->
  forall u, dot (vsub (whole_flank c P u) c) n = s * rb * reach t u.
Proof.
  intros HO SG ST (_ & FN) u. unfold whole_flank, reach. set (th := w + sg * t) in *.
  assert (SI : forall x, sin (sg * x) = sg * sin x).
  { intros x. destruct SG as [->| ->]; [rewrite !Rmult_1_l; reflexivity|].
    replace (-1 * x) with (- x) by ring. rewrite sin_neg. ring. }
  assert (CO : forall x, cos (sg * x) = cos x).
  { intros x. destruct SG as [->| ->]; [rewrite !Rmult_1_l; reflexivity|].
    replace (-1 * x) with (- x) by ring. apply cos_neg. }
  assert (SG2 : sg * sg = 1) by (destruct SG as [->| ->]; ring).
  destruct (Rlt_dec u 0) as [N|N].
  - rewrite (ST 0), Rmult_0_r, Rplus_0_r.
    replace (vsub (vadd c (smul (1 + u) (vsub (vadd c (smul rb (vsub (dir O w) (smul 0 (dir' O w))))) c))) c)
      with (smul ((1 + u) * rb) (dir O w)) by (set (p := dir O w); set (q := dir' O w); destruct p, q, c; vec_ring).
    rewrite FN, dot_smul_l, dot_smul_r, (dir_dir'_angle O w th HO).
    replace (w - th) with (sg * (- t)) by (unfold th; ring). rewrite SI, sin_neg.
    replace ((1 + u) * rb * (- (s * sg) * (sg * - sin t))) with ((sg * sg) * ((1 + u) * rb * s * sin t)) by ring.
    rewrite SG2. ring.
  - rewrite (ST u). set (a := w + sg * u).
    replace (vsub (vadd c (smul rb (vsub (dir O a) (smul (sg * u) (dir' O a))))) c)
      with (smul rb (vsub (dir O a) (smul (sg * u) (dir' O a)))) by (set (p := dir O a); set (q := dir' O a); destruct p, q, c; vec_ring).
    rewrite FN, dot_smul_l, dot_smul_r, dot_vsub_l, dot_smul_l, (dir_dir'_angle O a th HO), (dir'_dir'_angle O a th HO).
    replace (a - th) with (sg * (u - t)) by (unfold a, th; ring). rewrite SI, CO.
    replace (rb * (- (s * sg) * (sg * sin (u - t) - sg * u * cos (u - t))))
      with ((sg * sg) * (s * rb * (u * cos (u - t) - sin (u - t)))) by ring.
    rewrite SG2. ring.
Qed.

Lemma dot_le_norm v n : norm n = 1 -> dot v n <= norm v.
Proof.
  intros N. assert (D : dot n n = 1) by (rewrite <- norm_sqr, N; ring). pose proof (norm_nonneg v) as NV.
  destruct (Rle_lt_dec (dot v n) (norm v)) as [A|A]; [exact A|exfalso].
  assert (S : 0 <= dot (vsub v (smul (dot v n) n)) (vsub v (smul (dot v n) n))) by apply dot_nonneg.
  replace (dot (vsub v (smul (dot v n) n)) (vsub v (smul (dot v n) n)))
    with (dot v v - 2 * (dot v n * dot v n) + dot v n * dot v n * dot n n) in S by (destruct v, n; vec_simpl; ring).
  rewrite D, <- norm_sqr in S. nra.
Qed.

Lemma facing c1 c2 (P1 P2 : R -> vec) n g rb1 rb2 t1 t2 : norm n = 1 -> 0 <= g -> 0 < rb1 -> 0 < rb2 -> 0 <= t1 -> 0 <= t2 ->
  (forall u, dot (vsub (whole_flank c1 P1 u) c1) n = 1 * rb1 * reach t1 u) ->
  (forall u, dot (vsub (whole_flank c2 P2 u) c2) n = -1 * rb2 * reach t2 u) ->
  P2 t2 = vadd (P1 t1) (smul g n) -> face (whole_flank c1 P1) (whole_flank c2 P2) g t1 t2.
Proof.
  intros NN G R1 R2 T1 T2 D1 D2 E. assert (DN : dot n n = 1) by (rewrite <- norm_sqr, NN; ring).
  assert (E0 : vsub (whole_flank c2 P2 t2) (whole_flank c1 P1 t1) = smul g n).
  { unfold whole_flank. destruct (Rlt_dec t1 0); [lra|]. destruct (Rlt_dec t2 0); [lra|]. rewrite E.
    destruct (P1 t1), n. vec_ring. }
  assert (DD : forall u1 u2, dot (vsub (whole_flank c2 P2 u2) (whole_flank c1 P1 u1)) n =
    g + rb1 * (t1 - reach t1 u1) + rb2 * (t2 - reach t2 u2)).
  { assert (X : forall u1 u2, dot (vsub (whole_flank c2 P2 u2) (whole_flank c1 P1 u1)) n =
      dot (vsub c2 c1) n - rb2 * reach t2 u2 - rb1 * reach t1 u1).
    { intros u1 u2. pose proof (D1 u1) as A. pose proof (D2 u2) as B.
      set (f1 := whole_flank c1 P1 u1) in *. set (f2 := whole_flank c2 P2 u2) in *.
      replace (dot (vsub f2 f1) n) with (dot (vsub c2 c1) n + dot (vsub f2 c2) n - dot (vsub f1 c1) n)
        by (destruct f1, f2, c1, c2, n; vec_simpl; ring). lra. }
    intros u1 u2. pose proof (X t1 t2) as Y. rewrite E0, dot_smul_l, DN, !reach_self in Y by assumption.
    rewrite X. lra. }
  split; [|split].
  - rewrite E0, norm_smul, NN, Rabs_right by lra. ring.
  - intros u1 u2 U1 U2. apply Rle_trans with (dot (vsub (whole_flank c2 P2 u2) (whole_flank c1 P1 u1)) n).
    + rewrite DD. pose proof (reach_le t1 u1 T1 U1). pose proof (reach_le t2 u2 T2 U2).
      assert (0 <= rb1 * (t1 - reach t1 u1)) by (apply Rmult_le_pos; lra).
      assert (0 <= rb2 * (t2 - reach t2 u2)) by (apply Rmult_le_pos; lra). lra.
    + apply dot_le_norm. exact NN.
  - intros T1' T2' u1 u2 U1 U2 EN.
    pose proof (dot_le_norm (vsub (whole_flank c2 P2 u2) (whole_flank c1 P1 u1)) n NN) as LE.
    rewrite EN, DD in LE. pose proof (reach_le t1 u1 T1 U1). pose proof (reach_le t2 u2 T2 U2).
    assert (A : 0 <= rb1 * (t1 - reach t1 u1)) by (apply Rmult_le_pos; lra).
    assert (B : 0 <= rb2 * (t2 - reach t2 u2)) by (apply Rmult_le_pos; lra).
    assert (A0 : rb1 * (t1 - reach t1 u1) = 0) by lra. assert (B0 : rb2 * (t2 - reach t2 u2) = 0) by lra.
    apply Rmult_integral in A0. apply Rmult_integral in B0.
    split; apply reach_eq; lra.
Qed.

Lemma face_sym F1 F2 g t1 t2 : face F1 F2 g t1 t2 -> face F2 F1 g t2 t1.
Proof.
  assert (S : forall a b, norm (vsub a b) = norm (vsub b a)).
  { intros a b. replace (vsub a b) with (vopp (vsub b a)) by (destruct a, b; vec_ring). apply norm_vopp. }
  intros (A & B & C). split; [rewrite S; exact A|]. split.
  - intros u1 u2 U1 U2. rewrite S. apply B; assumption.
  - intros H1 H2 u1 u2 U1 U2. rewrite S. intros E. destruct (C H2 H1 u2 u1 U2 U1 E). split; assumption.
Qed.

(** ** The theorems *)

(** All lower (upper) flanks of a gear in all its positions share the frame of the contact line. *)
Lemma all_framed O c rb sg B n s (W : R -> Z -> R) (P : R -> Z -> R -> vec) (t : R -> Z -> R) :
  orthogonal O -> 0 < rb -> (sg = 1 \/ sg = -1) -> (s = 1 \/ s = -1) -> line_tangent c (col3 O) B n rb -> norm n = 1 ->
  (forall x k, strung O c rb sg (W x k) (P x k)) ->
  (forall x k, P x k (t x k) = vadd B (smul (s * rb * t x k) n) /\ normal_to (P x k) n (t x k)) ->
  (exists x k, t x k <> 0) ->
  forall x k u, dot (vsub (whole_flank c (P x k) u) c) n = s * rb * reach (t x k) u.
Proof.
  intros HO RB SG SS LT NN ST CT (x0 & k0 & N0) x k.
  assert (S2 : s * s = 1) by (destruct SS as [->| ->]; ring). assert (G2 : sg * sg = 1) by (destruct SG as [->| ->]; ring).
  destruct (CT x0 k0) as [E0 D0]. destruct (CT x k) as [E D].
  pose proof (frame_found _ _ _ _ _ _ _ _ _ _ HO RB G2 S2 (ST x0 k0) LT NN N0 E0 D0) as F0.
  pose proof (frame_again _ _ _ _ _ _ _ _ _ _ _ HO RB G2 S2 (ST x k) F0 E) as F.
  apply (dot_whole _ _ _ _ _ _ _ _ _ _ HO SG (ST x k) F).
Qed.

(** Facing pairs of a conjugate external pair of gears: lower flanks of teeth [m - k] and [k], upper flanks of teeth
    [m - k] and [k - 1].  [t1], [t2] are the unrolled angles of the facing points; they are on the flanks when they are
    not negative. *)
Theorem C107_external T1 T2 n1 n2 r1 r2 A1 A2 gl gu L :
  orthogonal (g_orient T1) -> orthogonal (g_orient T2) -> (0 < n1)%Z -> 0 < g_scale T1 * r1 -> 0 < g_scale T2 * r2 ->
  conjugate_external T1 T2 n1 n2 r1 r2 A1 A2 gl gu L ->
  let F1 (fl : gtransform -> Z -> R -> R -> Z -> R -> vec) x i := whole_flank (g_center T1) (fl (turned T1 n1 x) n1 r1 A1 i) in
  let F2 (fl : gtransform -> Z -> R -> R -> Z -> R -> vec) x i := whole_flank (g_center T2) (fl (turned T2 n2 (- x)) n2 r2 A2 i) in
  exists m e e', forall x k,
    (exists t1 t2, t1 = (e - x + IZR k) * (2 * PI / IZR n1) /\ g_scale T1 * r1 * t1 + g_scale T2 * r2 * t2 + gl = L /\
       (0 <= gl -> 0 <= t1 -> 0 <= t2 -> face (F1 lower_flank x (m - k)%Z) (F2 lower_flank x k) gl t1 t2)) /\
    (exists t1 t2, t1 = (e' + x - IZR k) * (2 * PI / IZR n1) /\ g_scale T1 * r1 * t1 + g_scale T2 * r2 * t2 + gu = L /\
       (0 <= gu -> 0 <= t1 -> 0 <= t2 -> face (F1 upper_flank x (m - k)%Z) (F2 upper_flank x (k - 1)%Z) gu t1 t2)).
Proof.
  intros O1 O2 HN R1 R2 (m & e & e' & n & B1 & B2 & n' & B1' & B2' & N & N' & L1 & L2 & L1' & L2' & EB & EB' & CT) F1 F2.
  set (rb1 := g_scale T1 * r1) in *. set (rb2 := g_scale T2 * r2) in *. pose proof PI_RGT_0 as PP.
  assert (N1 : 0 < IZR n1) by (apply IZR_lt; exact HN).
  set (p1 := 2 * PI / IZR n1) in *. assert (P1 : 0 < p1) by (apply Rdiv_lt_0_compat; lra).
  assert (RP : 0 < rb1 * p1) by (apply Rmult_lt_0_compat; assumption).
  unfold g_z_axis in *.
  (* the unrolled angles *)
  set (t1 := fun x k => (e - x + IZR k) * p1). set (t2 := fun x k => (L - gl - rb1 * t1 x k) / rb2).
  set (v1 := fun x k => (e' + x - IZR k) * p1). set (v2 := fun x k => (L - gu - rb1 * v1 x k) / rb2).
  assert (LOW : forall x k,
    lower_flank (turned T1 n1 x) n1 r1 A1 (m - k) (t1 x k) = vadd B1 (smul (1 * rb1 * t1 x k) n) /\
    lower_flank (turned T2 n2 (- x)) n2 r2 A2 k (t2 x k) = vadd B2 (smul (-1 * rb2 * t2 x k) n) /\
    lower_flank (turned T2 n2 (- x)) n2 r2 A2 k (t2 x k) = vadd (lower_flank (turned T1 n1 x) n1 r1 A1 (m - k) (t1 x k)) (smul gl n) /\
    normal_to (lower_flank (turned T1 n1 x) n1 r1 A1 (m - k)) n (t1 x k) /\
    normal_to (lower_flank (turned T2 n2 (- x)) n2 r2 A2 k) n (t2 x k)).
  { intros x k. destruct (CT x k) as [(a & b & Ea & E1 & E2 & E3 & V1 & V2) _].
    pose proof (strings_fill n B1 B2 L _ _ gl _ _ N EB E1 E2 E3) as SF.
    assert (Ta : a = t1 x k) by exact Ea. rewrite <- Ta.
    assert (Tb : b = t2 x k). { unfold t2. rewrite <- Ta. apply Rmult_eq_reg_l with rb2; [|lra]. field_simplify; lra. }
    rewrite <- Tb. split; [|split; [|split; [exact E3|split; assumption]]].
    - rewrite E1. do 2 f_equal. ring.
    - rewrite E2. destruct B2, n. vec_ring. }
  assert (UPP : forall x k,
    upper_flank (turned T1 n1 x) n1 r1 A1 (m - k) (v1 x k) = vadd B1' (smul (-1 * rb1 * v1 x k) n') /\
    upper_flank (turned T2 n2 (- x)) n2 r2 A2 (k - 1) (v2 x k) = vadd B2' (smul (1 * rb2 * v2 x k) n') /\
    upper_flank (turned T1 n1 x) n1 r1 A1 (m - k) (v1 x k) = vadd (upper_flank (turned T2 n2 (- x)) n2 r2 A2 (k - 1) (v2 x k)) (smul gu n') /\
    normal_to (upper_flank (turned T1 n1 x) n1 r1 A1 (m - k)) n' (v1 x k) /\
    normal_to (upper_flank (turned T2 n2 (- x)) n2 r2 A2 (k - 1)) n' (v2 x k)).
  { intros x k. destruct (CT x k) as [_ (a & b & Ea & E1 & E2 & E3 & V1 & V2)].
    pose proof (strings_fill n' B2' B1' L _ _ gu _ _ N' EB' E2 E1 E3) as SF.
    assert (Ta : a = v1 x k) by exact Ea. rewrite <- Ta.
    assert (Tb : b = v2 x k). { unfold v2. rewrite <- Ta. apply Rmult_eq_reg_l with rb2; [|lra]. field_simplify; lra. }
    rewrite <- Tb. split; [|split; [|split; [exact E3|split; assumption]]].
    - rewrite E1. destruct B1', n'. vec_ring.
    - rewrite E2. do 2 f_equal. ring. }
  assert (X1 : exists x k, t1 x k <> 0) by (exists (e + 1), 0%Z; unfold t1; replace (e - (e + 1) + IZR 0) with (-1) by ring; lra).
  assert (X2 : exists x k, t2 x k <> 0).
  { exists (e - ((L - gl) / rb1 / p1 + 1)), 0%Z. unfold t2, t1.
    replace (e - (e - ((L - gl) / rb1 / p1 + 1)) + IZR 0) with ((L - gl) / rb1 / p1 + 1) by ring.
    replace ((L - gl - rb1 * (((L - gl) / rb1 / p1 + 1) * p1)) / rb2) with (- (rb1 * p1) / rb2) by (field; lra).
    apply Rlt_not_eq. apply Ropp_lt_cancel. rewrite Ropp_0. replace (- (- (rb1 * p1) / rb2)) with (rb1 * p1 / rb2) by (field; lra).
    apply Rdiv_lt_0_compat; assumption. }
  assert (Y1 : exists x k, v1 x k <> 0) by (exists (1 - e'), 0%Z; unfold v1; replace (e' + (1 - e') - IZR 0) with 1 by ring; lra).
  assert (Y2 : exists x k, v2 x k <> 0).
  { exists ((L - gu) / rb1 / p1 + 1 - e'), 0%Z. unfold v2, v1.
    replace (e' + ((L - gu) / rb1 / p1 + 1 - e') - IZR 0) with ((L - gu) / rb1 / p1 + 1) by ring.
    replace ((L - gu - rb1 * (((L - gu) / rb1 / p1 + 1) * p1)) / rb2) with (- (rb1 * p1) / rb2) by (field; lra).
    apply Rlt_not_eq. apply Ropp_lt_cancel. rewrite Ropp_0. replace (- (- (rb1 * p1) / rb2)) with (rb1 * p1 / rb2) by (field; lra).
    apply Rdiv_lt_0_compat; assumption. }
  assert (D1 := all_framed (g_orient T1) (g_center T1) rb1 1 B1 n 1 _ (fun x k => lower_flank (turned T1 n1 x) n1 r1 A1 (m - k)) t1
    O1 R1 (or_introl eq_refl) (or_introl eq_refl) L1 N (fun x k => lower_strung (turned T1 n1 x) n1 r1 A1 (m - k))
    (fun x k => conj (proj1 (LOW x k)) (proj1 (proj2 (proj2 (proj2 (LOW x k)))))) X1).
  assert (D2 := all_framed (g_orient T2) (g_center T2) rb2 1 B2 n (-1) _ (fun x k => lower_flank (turned T2 n2 (- x)) n2 r2 A2 k) t2
    O2 R2 (or_introl eq_refl) (or_intror eq_refl) L2 N (fun x k => lower_strung (turned T2 n2 (- x)) n2 r2 A2 k)
    (fun x k => conj (proj1 (proj2 (LOW x k))) (proj2 (proj2 (proj2 (proj2 (LOW x k)))))) X2).
  assert (U1 := all_framed (g_orient T1) (g_center T1) rb1 (-1) B1' n' (-1) _ (fun x k => upper_flank (turned T1 n1 x) n1 r1 A1 (m - k)) v1
    O1 R1 (or_intror eq_refl) (or_intror eq_refl) L1' N' (fun x k => upper_strung (turned T1 n1 x) n1 r1 A1 (m - k))
    (fun x k => conj (proj1 (UPP x k)) (proj1 (proj2 (proj2 (proj2 (UPP x k)))))) Y1).
  assert (U2 := all_framed (g_orient T2) (g_center T2) rb2 (-1) B2' n' 1 _ (fun x k => upper_flank (turned T2 n2 (- x)) n2 r2 A2 (k - 1)) v2
    O2 R2 (or_intror eq_refl) (or_introl eq_refl) L2' N' (fun x k => upper_strung (turned T2 n2 (- x)) n2 r2 A2 (k - 1))
    (fun x k => conj (proj1 (proj2 (UPP x k))) (proj2 (proj2 (proj2 (proj2 (UPP x k)))))) Y2).
  exists m, e, e'. intros x k. split.
  - exists (t1 x k), (t2 x k). split; [reflexivity|]. split; [unfold t2; field; lra|]. intros G H1 H2.
    apply (facing (g_center T1) (g_center T2) _ _ n gl rb1 rb2); try assumption; [apply (D1 x k)|apply (D2 x k)|].
    apply (proj1 (proj2 (proj2 (LOW x k)))).
  - exists (v1 x k), (v2 x k). split; [reflexivity|]. split; [unfold v2; field; lra|]. intros G H1 H2.
    apply face_sym. apply (facing (g_center T2) (g_center T1) _ _ n' gu rb2 rb1); try assumption; [apply (U2 x k)|apply (U1 x k)|].
    apply (proj1 (proj2 (proj2 (UPP x k)))).
Qed.

(** When the length of action exceeds a base pitch by the gap, then in every position some pair of flanks faces each
    other across the gap, and comes nowhere closer. *)
Theorem C107_some_pair T1 T2 n1 n2 r1 r2 A1 A2 gl gu L :
  orthogonal (g_orient T1) -> orthogonal (g_orient T2) -> (0 < n1)%Z -> 0 < g_scale T1 * r1 -> 0 < g_scale T2 * r2 ->
  conjugate_external T1 T2 n1 n2 r1 r2 A1 A2 gl gu L -> 0 <= gl ->
  g_scale T1 * r1 * (2 * PI / IZR n1) + gl <= L ->
  forall x, exists i k t1 t2, 0 <= t1 /\ 0 <= t2 /\
    face (whole_flank (g_center T1) (lower_flank (turned T1 n1 x) n1 r1 A1 i))
      (whole_flank (g_center T2) (lower_flank (turned T2 n2 (- x)) n2 r2 A2 k)) gl t1 t2.
Proof.
  intros O1 O2 HN R1 R2 CE G HL x. pose proof (C107_external _ _ _ _ _ _ _ _ _ _ _ O1 O2 HN R1 R2 CE) as K.
  cbv zeta in K. destruct K as (m & e & e' & K). set (k := up (x - e)).
  destruct (K x k) as [(t1 & t2 & E1 & E2 & F) _]. exists (m - k)%Z, k, t1, t2.
  pose proof (archimed (x - e)) as [U1 U2]. fold k in U1, U2. pose proof PI_RGT_0 as PP.
  assert (N1 : 0 < IZR n1) by (apply IZR_lt; exact HN).
  set (p1 := 2 * PI / IZR n1) in *. assert (P1 : 0 < p1) by (apply Rdiv_lt_0_compat; lra).
  assert (T1b : 0 <= t1 <= p1).
  { rewrite E1. split.
    - apply Rmult_le_pos; lra.
    - apply Rle_trans with (1 * p1); [apply Rmult_le_compat_r|]; lra. }
  set (rb1 := g_scale T1 * r1) in *. set (rb2 := g_scale T2 * r2) in *.
  assert (rb1 * t1 <= rb1 * p1) by (apply Rmult_le_compat_l; lra).
  assert (T2b : 0 <= t2) by (apply (Rmult_le_reg_l rb2); lra).
  split; [lra|]. split; [exact T2b|]. apply F; lra.
Qed.

Lemma norm_origin : norm ORIGIN = 0.
Proof. apply norm_eq; [lra|vec_simpl; ring]. Qed.

(** What facing means: with a gap the flanks have no common point; without, they touch in a single point. *)
Theorem C107_touch F1 F2 g t1 t2 : face F1 F2 g t1 t2 -> 0 < t1 -> 0 < t2 ->
  forall u1 u2, -1 <= u1 <= PI -> -1 <= u2 <= PI ->
  (0 < g -> F1 u1 <> F2 u2) /\ (g = 0 -> F1 u1 = F2 u2 -> u1 = t1 /\ u2 = t2).
Proof.
  intros (A & B & C) H1 H2 u1 u2 U1 U2. split.
  - intros G E. pose proof (B u1 u2 U1 U2) as X. rewrite E in X.
    replace (vsub (F2 u2) (F2 u2)) with ORIGIN in X by (destruct (F2 u2); vec_ring). rewrite norm_origin in X. lra.
  - intros -> E. apply C; try assumption. rewrite E.
    replace (vsub (F2 u2) (F2 u2)) with ORIGIN by (destruct (F2 u2); vec_ring). apply norm_origin.
Qed.

(** The gears after [mesh_to]: for every roll [x] the facing flanks of both sides are at the distances
    [bl/2 (1 + bias)] and [bl/2 (1 - bias)], whenever the facing points exist. *)
Theorem C107_mesh_to g o sg so a target bl bias g' n1 n2 :
  cylindrical g n1 -> cylindrical o n2 ->
  ip_inside (ig_in g) = false -> ip_inside (ig_in o) = false ->
  ip_module (ig_in g) * cos (ip_alpha (ig_in g)) = ip_module (ig_in o) * cos (ip_alpha (ig_in o)) ->
  / 10 ^ 12 <= ig_r_base g + ig_r_base o ->
  dot target (g_z_axis (k_trf (ig_core o))) = 0 ->
  - PI / 2 < a < PI / 2 -> ig_mesh_equation g o sg so bl a = 0 ->
  ig_mesh_to g o sg so a target bl bias = Ok g' -> 0 <= bl -> -1 <= bias <= 1 ->
  let T1 := k_trf (ig_core g') in let T2 := k_trf (ig_core o) in
  let F1 (fl : gtransform -> Z -> R -> R -> Z -> R -> vec) x i :=
    whole_flank (g_center T1) (fl (turned T1 n1 x) n1 (unit_base g) (- ig_angle_base g sg) i) in
  let F2 (fl : gtransform -> Z -> R -> R -> Z -> R -> vec) x i :=
    whole_flank (g_center T2) (fl (turned T2 n2 (- x)) n2 (unit_base o) (- ig_angle_base o so) i) in
  exists m e e', forall x k,
    (exists t1 t2, t1 = (e - x + IZR k) * (2 * PI / IZR n1) /\
       ig_r_base g * t1 + ig_r_base o * t2 + bl / 2 * (1 + bias) = (ig_r_base g + ig_r_base o) * tan a /\
       (0 <= t1 -> 0 <= t2 -> face (F1 lower_flank x (m - k)%Z) (F2 lower_flank x k) (bl / 2 * (1 + bias)) t1 t2)) /\
    (exists t1 t2, t1 = (e' + x - IZR k) * (2 * PI / IZR n1) /\
       ig_r_base g * t1 + ig_r_base o * t2 + bl / 2 * (1 - bias) = (ig_r_base g + ig_r_base o) * tan a /\
       (0 <= t1 -> 0 <= t2 -> face (F1 upper_flank x (m - k)%Z) (F2 upper_flank x (k - 1)%Z) (bl / 2 * (1 - bias)) t1 t2)).
Proof.
  intros H1 H2 I1 I2 PB RR TZ Ha EQ MT BL BI T1 T2 F1 F2.
  pose proof (C45_external _ _ _ _ _ _ _ _ _ _ _ H1 H2 I1 I2 PB RR TZ Ha EQ MT) as CE. fold T1 T2 in CE.
  destruct (mesh_to_planar _ _ _ _ _ _ _ _ _ _ _ H1 H2 MT) as (Hn & IN & H1' & OR & _ & _).
  pose proof (r_base_eq _ _ H1) as R1. pose proof (r_base_eq _ _ H2) as R2.
  pose proof (unit_base_pos _ _ H1) as U1. pose proof (unit_base_pos _ _ H2) as U2.
  pose proof (cy_module _ _ H1) as M1. pose proof (cy_module _ _ H2) as M2.
  assert (S1 : g_scale T1 * unit_base g = ig_r_base g).
  { unfold T1. rewrite (cy_scale _ _ H1'), IN, R1. reflexivity. }
  assert (S2 : g_scale T2 * unit_base o = ig_r_base o).
  { unfold T2. rewrite (cy_scale _ _ H2), R2. reflexivity. }
  assert (Q1 : 0 < ig_r_base g) by (rewrite R1; apply Rmult_lt_0_compat; assumption).
  assert (Q2 : 0 < ig_r_base o) by (rewrite R2; apply Rmult_lt_0_compat; assumption).
  assert (P1 : 0 < g_scale T1 * unit_base g) by (rewrite S1; exact Q1).
  assert (P2 : 0 < g_scale T2 * unit_base o) by (rewrite S2; exact Q2).
  assert (GL : 0 <= bl / 2 * (1 + bias)) by (apply Rmult_le_pos; lra).
  assert (GU : 0 <= bl / 2 * (1 - bias)) by (apply Rmult_le_pos; lra).
  pose proof (C107_external T1 T2 n1 n2 _ _ _ _ _ _ _ (cy_orient _ _ H1') (cy_orient _ _ H2) (cy_n _ _ H1) P1 P2 CE) as K.
  cbv zeta in K. rewrite S1, S2 in K. destruct K as (m & e & e' & K). exists m, e, e'. intros x k.
  destruct (K x k) as [(t1 & t2 & A & B & C) (v1 & v2 & A' & B' & C')]. split.
  - exists t1, t2. split; [exact A|]. split; [exact B|]. apply C. exact GL.
  - exists v1, v2. split; [exact A'|]. split; [exact B'|]. apply C'. exact GU.
Qed.

(** ** Concrete pairs: 20 and 40 teeth, module 2, without backlash *)

Lemma ex_touching : exists sg so g', ig_mesh_equation ex_g ex_o sg so 0 (PI / 9) = 0 /\
  ig_mesh_to ex_g ex_o sg so (PI / 9) RIGHT 0 0 = Ok g' /\
  orthogonal (g_orient (k_trf (ig_core g'))) /\ orthogonal (g_orient (k_trf (ig_core ex_o))) /\
  g_scale (k_trf (ig_core g')) * unit_base ex_g = 20 * cos (PI / 9) /\
  g_scale (k_trf (ig_core ex_o)) * unit_base ex_o = 40 * cos (PI / 9) /\
  ig_r_base ex_g = 20 * cos (PI / 9) /\ ig_r_base ex_o = 40 * cos (PI / 9) /\
  / 10 ^ 12 <= ig_r_base ex_g + ig_r_base ex_o /\
  conjugate_external (k_trf (ig_core g')) (k_trf (ig_core ex_o)) 20 40 (unit_base ex_g) (unit_base ex_o)
    (- ig_angle_base ex_g sg) (- ig_angle_base ex_o so) 0 0 (60 * cos (PI / 9) * tan (PI / 9)).
Proof.
  pose proof (ex_cyl 20 false ltac:(lia)) as H1. pose proof (ex_cyl 40 false ltac:(lia)) as H2.
  destruct (ex_solved 20 false ltac:(lia)) as (sg & S1). destruct (ex_solved 40 false ltac:(lia)) as (so & S2).
  fold ex_g in H1, S1. fold ex_o in H2, S2.
  assert (I1 : ig_in ex_g = ex_param 20 false) by (apply (ex_in 20); lia).
  assert (I2 : ig_in ex_o = ex_param 40 false) by (apply (ex_in 40); lia).
  assert (K1 : inside_teeth (k_tooth (ig_core ex_g)) = false) by (rewrite (k_tooth_eq _ _ H1), I1; reflexivity).
  assert (K2 : inside_teeth (k_tooth (ig_core ex_o)) = false) by (rewrite (k_tooth_eq _ _ H2), I2; reflexivity).
  destruct (C42_root_exists_unique ex_g ex_o sg so 0 K1 K2) as [(a & Ha & E) _].
  destruct (ex_mesh_ok ex_g ex_o sg so a 0 0 20 40 H1 H2) as (g' & MT).
  destruct (C42_standard_external ex_g ex_o 20 40 sg so a RIGHT 0 g') as [EA _]; try assumption;
    try (rewrite ?I1, ?I2; cbn; (reflexivity || lra || apply inv_20deg)).
  rewrite I1 in EA. cbn in EA. subst a.
  destruct (mesh_to_planar _ _ _ _ _ _ _ _ _ _ _ H1 H2 MT) as (Hn & IN & H1' & OR & _ & _).
  pose proof (ex_r_base 20 false ltac:(lia)) as R1. pose proof (ex_r_base 40 false ltac:(lia)) as R2. fold ex_g in R1. fold ex_o in R2.
  exists sg, so, g'. split; [exact E|]. split; [exact MT|]. split; [apply (cy_orient _ _ H1')|]. split; [apply (cy_orient _ _ H2)|].
  assert (RR : / 10 ^ 12 <= ig_r_base ex_g + ig_r_base ex_o).
  { rewrite R1, R2. pose proof cos_20deg. apply Rle_trans with 1; [|lra]. rewrite <- Rinv_1. apply Rinv_le_contravar; lra. }
  split; [rewrite (cy_scale _ _ H1'), IN, <- R1, (r_base_eq _ _ H1); reflexivity|].
  split; [rewrite (cy_scale _ _ H2), <- R2, (r_base_eq _ _ H2); reflexivity|].
  split; [exact R1|]. split; [exact R2|]. split; [exact RR|].
  assert (CE : conjugate_external (k_trf (ig_core g')) (k_trf (ig_core ex_o)) 20 40 (unit_base ex_g) (unit_base ex_o)
    (- ig_angle_base ex_g sg) (- ig_angle_base ex_o so) (0 / 2 * (1 + 0)) (0 / 2 * (1 - 0))
    ((ig_r_base ex_g + ig_r_base ex_o) * tan (PI / 9))).
  { apply (C45_external ex_g ex_o sg so (PI / 9) RIGHT); try assumption; try (rewrite ?I1, ?I2; reflexivity).
    apply (ex_axis 40); lia. }
  replace (0 / 2 * (1 + 0)) with 0 in CE by field. replace (0 / 2 * (1 - 0)) with 0 in CE by field.
  rewrite R1, R2 in CE. replace (20 * cos (PI / 9) + 40 * cos (PI / 9)) with (60 * cos (PI / 9)) in CE by ring. exact CE.
Qed.

Lemma ex_long : 20 * cos (PI / 9) * (2 * PI / IZR 20) + 0 <= 60 * cos (PI / 9) * tan (PI / 9).
Proof.
  pose proof PI_RGT_0 as PP. pose proof cos_20deg as C. pose proof (inv_pos (PI / 9) ltac:(lra)) as I. unfold inv in I.
  assert (X : 0 <= cos (PI / 9) * (60 * (tan (PI / 9) - PI / 9))) by (apply Rmult_le_pos; lra).
  assert (Y : 0 <= cos (PI / 9) * PI) by (apply Rmult_le_pos; lra). lra.
Qed.

(** In every position two flanks touch and nothing else of the two flanks meets. *)
Example C107_some_pair_example : exists sg so g', ig_mesh_to ex_g ex_o sg so (PI / 9) RIGHT 0 0 = Ok g' /\
  forall x, exists i k t1 t2, 0 <= t1 /\ 0 <= t2 /\
    face (whole_flank (g_center (k_trf (ig_core g'))) (lower_flank (turned (k_trf (ig_core g')) 20 x) 20 (unit_base ex_g) (- ig_angle_base ex_g sg) i))
      (whole_flank (g_center (k_trf (ig_core ex_o))) (lower_flank (turned (k_trf (ig_core ex_o)) 40 (- x)) 40 (unit_base ex_o) (- ig_angle_base ex_o so) k)) 0 t1 t2.
Proof.
  destruct ex_touching as (sg & so & g' & _ & MT & O1 & O2 & S1 & S2 & _ & _ & _ & CE). pose proof cos_20deg as C.
  exists sg, so, g'. split; [exact MT|].
  apply (C107_some_pair _ _ 20 40 _ _ _ _ 0 0 (60 * cos (PI / 9) * tan (PI / 9))); try assumption; try lia; try lra.
  rewrite S1. exact ex_long.
Qed.

(** A position with both angles positive: the flanks have exactly one point in common. *)
Lemma ex_face : exists sg so g' x i k t1 t2, ig_mesh_to ex_g ex_o sg so (PI / 9) RIGHT 0 0 = Ok g' /\ 0 < t1 /\ 0 < t2 /\
    face (whole_flank (g_center (k_trf (ig_core g'))) (lower_flank (turned (k_trf (ig_core g')) 20 x) 20 (unit_base ex_g) (- ig_angle_base ex_g sg) i))
      (whole_flank (g_center (k_trf (ig_core ex_o))) (lower_flank (turned (k_trf (ig_core ex_o)) 40 (- x)) 40 (unit_base ex_o) (- ig_angle_base ex_o so) k)) 0 t1 t2.
Proof.
  destruct ex_touching as (sg & so & g' & EQ & MT & O1 & O2 & S1 & S2 & R1 & R2 & RR & CE). pose proof cos_20deg as C.
  pose proof PI_RGT_0 as PP.
  pose proof (C107_external _ _ 20 40 _ _ _ _ _ _ _ O1 O2 ltac:(lia) ltac:(rewrite S1; lra) ltac:(rewrite S2; lra) CE) as K.
  cbv zeta in K. destruct K as (m & e & e' & K).
  destruct (K (e - 1 / 2) 0%Z) as [(t1 & t2 & E1 & E2 & F) _]. rewrite S1, S2 in E2.
  replace (e - (e - 1 / 2) + IZR 0) with (1 / 2) in E1 by field.
  assert (T1 : t1 = PI / 20) by (rewrite E1; field).
  pose proof ex_long as L. replace (20 * cos (PI / 9) * (2 * PI / IZR 20) + 0) with (20 * cos (PI / 9) * (2 * t1)) in L by (rewrite T1; field).
  assert (0 < cos (PI / 9) * t1) by (apply Rmult_lt_0_compat; lra).
  assert (T2 : 0 < t2).
  { apply (Rmult_lt_reg_l (40 * cos (PI / 9))); lra. }
  exists sg, so, g', (e - 1 / 2), (m - 0)%Z, 0%Z, t1, t2. split; [exact MT|]. split; [lra|]. split; [exact T2|].
  apply F; lra.
Qed.

Example C107_touch_example : exists (F1 F2 : R -> vec) t1 t2, face F1 F2 0 t1 t2 /\ F1 t1 = F2 t2 /\
  forall u1 u2, -1 <= u1 <= PI -> -1 <= u2 <= PI -> F1 u1 = F2 u2 -> u1 = t1 /\ u2 = t2.
Proof.
  destruct ex_face as (sg & so & g' & x & i & k & t1 & t2 & _ & P1 & P2 & F).
  exists (whole_flank (g_center (k_trf (ig_core g'))) (lower_flank (turned (k_trf (ig_core g')) 20 x) 20 (unit_base ex_g) (- ig_angle_base ex_g sg) i)),
    (whole_flank (g_center (k_trf (ig_core ex_o))) (lower_flank (turned (k_trf (ig_core ex_o)) 40 (- x)) 40 (unit_base ex_o) (- ig_angle_base ex_o so) k)), t1, t2.
  split; [exact F|]. split.
  - destruct F as (F & _). apply norm_zero in F. set (a := whole_flank _ _ t1). set (b := whole_flank _ _ t2) in *. fold a in F.
    destruct a as [a1 a2 a3], b as [b1 b2 b3]. unfold vsub in F. cbn [vx vy vz] in F. injection F as X Y Z. f_equal; lra.
  - intros u1 u2 U1 U2. apply (proj2 (C107_touch _ _ _ _ _ F P1 P2 u1 u2 U1 U2)). reflexivity.
Qed.

Example C107_external_example : exists T1 T2 L, orthogonal (g_orient T1) /\ orthogonal (g_orient T2) /\
  0 < g_scale T1 * unit_base ex_g /\ 0 < g_scale T2 * unit_base ex_o /\ exists sg so,
  conjugate_external T1 T2 20 40 (unit_base ex_g) (unit_base ex_o) (- ig_angle_base ex_g sg) (- ig_angle_base ex_o so) 0 0 L /\
  exists x i k t1 t2, 0 < t1 /\ 0 < t2 /\
    face (whole_flank (g_center T1) (lower_flank (turned T1 20 x) 20 (unit_base ex_g) (- ig_angle_base ex_g sg) i))
      (whole_flank (g_center T2) (lower_flank (turned T2 40 (- x)) 40 (unit_base ex_o) (- ig_angle_base ex_o so) k)) 0 t1 t2.
Proof.
  destruct ex_touching as (sg & so & g' & EQ & MT & O1 & O2 & S1 & S2 & R1 & R2 & RR & CE). pose proof cos_20deg as C.
  pose proof PI_RGT_0 as PP. exists (k_trf (ig_core g')), (k_trf (ig_core ex_o)), (60 * cos (PI / 9) * tan (PI / 9)).
  split; [exact O1|]. split; [exact O2|]. split; [rewrite S1; lra|]. split; [rewrite S2; lra|]. exists sg, so. split; [exact CE|].
  pose proof (C107_external _ _ 20 40 _ _ _ _ _ _ _ O1 O2 ltac:(lia) ltac:(rewrite S1; lra) ltac:(rewrite S2; lra) CE) as K.
  cbv zeta in K. destruct K as (m & e & e' & K).
  destruct (K (e - 1 / 2) 0%Z) as [(t1 & t2 & E1 & E2 & F) _]. rewrite S1, S2 in E2.
  replace (e - (e - 1 / 2) + IZR 0) with (1 / 2) in E1 by field.
  assert (T1 : t1 = PI / 20) by (rewrite E1; field).
  pose proof ex_long as L. replace (20 * cos (PI / 9) * (2 * PI / IZR 20) + 0) with (20 * cos (PI / 9) * (2 * t1)) in L by (rewrite T1; field).
  assert (0 < cos (PI / 9) * t1) by (apply Rmult_lt_0_compat; lra).
  assert (T2 : 0 < t2).
  { apply (Rmult_lt_reg_l (40 * cos (PI / 9))); lra. }
  exists (e - 1 / 2), (m - 0)%Z, 0%Z, t1, t2. split; [lra|]. split; [exact T2|]. apply F; lra.
Qed.

(** The upper flanks of the same pair, after [mesh_to]. *)
Example C107_mesh_to_example : exists sg so g' x i k t1 t2, ig_mesh_to ex_g ex_o sg so (PI / 9) RIGHT 0 0 = Ok g' /\ 0 < t1 /\ 0 < t2 /\
    face (whole_flank (g_center (k_trf (ig_core g'))) (upper_flank (turned (k_trf (ig_core g')) 20 x) 20 (unit_base ex_g) (- ig_angle_base ex_g sg) i))
      (whole_flank (g_center (k_trf (ig_core ex_o))) (upper_flank (turned (k_trf (ig_core ex_o)) 40 (- x)) 40 (unit_base ex_o) (- ig_angle_base ex_o so) k))
      (0 / 2 * (1 - 0)) t1 t2.
Proof.
  destruct ex_touching as (sg & so & g' & EQ & MT & O1 & O2 & S1 & S2 & R1 & R2 & RR & CE). pose proof cos_20deg as C.
  pose proof PI_RGT_0 as PP. pose proof (ex_cyl 20 false ltac:(lia)) as H1. pose proof (ex_cyl 40 false ltac:(lia)) as H2.
  fold ex_g in H1. fold ex_o in H2.
  assert (I1 : ig_in ex_g = ex_param 20 false) by (apply (ex_in 20); lia).
  assert (I2 : ig_in ex_o = ex_param 40 false) by (apply (ex_in 40); lia).
  assert (AX : dot RIGHT (g_z_axis (k_trf (ig_core ex_o))) = 0) by (apply (ex_axis 40); lia).
  pose proof (C107_mesh_to ex_g ex_o sg so (PI / 9) RIGHT 0 0 g' 20 40 H1 H2 ltac:(rewrite I1; reflexivity) ltac:(rewrite I2; reflexivity)
    ltac:(rewrite I1, I2; reflexivity) RR AX ltac:(lra) EQ MT ltac:(lra) ltac:(lra)) as K.
  cbv zeta in K. destruct K as (m & e & e' & K).
  destruct (K (1 / 2 - e') 0%Z) as [_ (t1 & t2 & E1 & E2 & F)]. rewrite R1, R2 in E2.
  replace (e' + (1 / 2 - e') - IZR 0) with (1 / 2) in E1 by field.
  assert (T1 : t1 = PI / 20) by (rewrite E1; field).
  pose proof ex_long as L. replace (20 * cos (PI / 9) * (2 * PI / IZR 20) + 0) with (20 * cos (PI / 9) * (2 * t1)) in L by (rewrite T1; field).
  assert (0 < cos (PI / 9) * t1) by (apply Rmult_lt_0_compat; lra).
  assert (T2 : 0 < t2).
  { apply (Rmult_lt_reg_l (40 * cos (PI / 9))); lra. }
  exists sg, so, g', (1 / 2 - e'), (m - 0)%Z, (0 - 1)%Z, t1, t2. split; [exact MT|]. split; [lra|]. split; [exact T2|]. apply F; lra.
Qed.
