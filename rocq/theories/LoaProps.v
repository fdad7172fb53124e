(** Property C50: lines of action. *)
From Coq Require Import Nsatz Reals Lra Psatz Lia ZArith List Bool.
From Verif Require Import Num Vec Transform TransformProps Params ParamsProps Coords CoordsProps Gen GenProps
  Interp Curve CurveLem CurveProps ArcLem ArcProps Chain GearMath Tooth Wrapper GearLem MeshAngleProps MeshLem
  MeshNormal MeshConj MeshProps MeshDistProps MeshContactProps Info InfoProps HelicalProps CrownProps Loa.
Import ListNotations.
Open Scope R_scope.

Notation I3 := UNIT3X3.
Lemma orth_I : orthogonal I3. Proof. apply rotation_I. Qed.
Lemma col3_I : col3 I3 = OUT. Proof. vec_ring. Qed.

Lemma rotate_dir th a : rotate_vector (dir I3 th) a = dir I3 (th + a).
Proof. unfold rotate_vector, dir. rewrite cos_plus, sin_plus. apply vec_eq; vec_simpl; ring. Qed.
Lemma rotate_opp v a : rotate_vector (vopp v) a = vopp (rotate_vector v a).
Proof. unfold rotate_vector. vec_ring. Qed.
Lemma dir_quarter O a : dir O (a - PI / 2) = vopp (dir' O a).
Proof.
  unfold dir, dir'. replace (a - PI / 2) with (- (PI / 2 - a)) by ring. rewrite cos_neg, sin_neg, cos_shift, sin_shift. vec_ring.
Qed.

(** The centre line of gears standing in the xy plane. *)
Lemma planar_diff c1 c2 : norm (vsub c2 c1) <> 0 -> dot (vsub c2 c1) OUT = 0 ->
  exists th, c2 = vadd c1 (smul (norm (vsub c2 c1)) (dir I3 th)) /\ normalize (vsub c2 c1) = dir I3 th.
Proof.
  intros N Z. pose proof (norm_nonneg (vsub c2 c1)).
  rewrite <- col3_I in Z. pose proof (dir_of_plane I3 _ orth_I Z) as E.
  set (th := angle_xy (vmat (vsub c2 c1) I3)) in *. exists th. split.
  - rewrite <- E. vec_ring.
  - rewrite E at 1. apply normalize_smul; [lra|apply norm_dir, orth_I].
Qed.

Lemma dir_back O th al : dir O th = vsub (smul (cos al) (dir O (th + al))) (smul (sin al) (dir' O (th + al))).
Proof.
  replace th with ((th + al) + - al) at 1 by ring. rewrite dir_plus, cos_neg, sin_neg. vec_ring.
Qed.

Lemma acos_range x d : 0 < d -> ~ 1 < Rabs x / d -> -1 <= x / d <= 1.
Proof.
  intros D H. apply Rnot_lt_le in H. assert (A : Rabs (x / d) <= 1).
  { unfold Rdiv. rewrite Rabs_mult, (Rabs_right (/ d)); [exact H|]. apply Rle_ge, Rlt_le, Rinv_0_lt_compat, D. }
  pose proof (Rle_abs (x / d)). pose proof (Rle_abs (- (x / d))) as B. rewrite Rabs_Ropp in B. lra.
Qed.

(** ** C50 *)

(** A segment from [p] in direction [n] of length [L]. *)
Definition segment (p q n : vec) (L : R) : Prop := norm n = 1 /\ 0 <= L /\ q = vadd p (smul L n).

(** [q] is the mirror image of [p] in the line through [c1] and [c2], which lies in the xy plane. *)
Definition mirror_images (c1 c2 p q : vec) : Prop :=
  dot (vsub p q) (vsub c2 c1) = 0 /\ exists l, vadd p q = vadd (smul 2 c1) (smul l (vsub c2 c1)).

Lemma tangent_at c X rb : 0 <= rb -> line_tangent c OUT (vadd c (smul rb (dir I3 X))) (vopp (dir' I3 X)) rb /\
  line_tangent c OUT (vadd c (smul rb (vopp (dir I3 X)))) (vopp (dir' I3 X)) rb.
Proof.
  intros H. unfold line_tangent.
  replace (vsub (vadd c (smul rb (dir I3 X))) c) with (smul rb (dir I3 X)) by vec_ring.
  replace (vsub (vadd c (smul rb (vopp (dir I3 X)))) c) with (smul (- rb) (dir I3 X)) by vec_ring.
  pose proof (dir_z I3 X orth_I) as Z. pose proof (dir'_z I3 X orth_I) as Z'. rewrite col3_I in Z, Z'.
  rewrite !norm_smul, Rabs_Ropp, Rabs_right, norm_dir, !dot_smul_l by (apply orth_I || lra).
  replace (dot (dir I3 X) (vopp (dir' I3 X))) with (- dot (dir I3 X) (dir' I3 X)) by vec_ring.
  replace (dot (vopp (dir' I3 X)) OUT) with (- dot (dir' I3 X) OUT) by vec_ring.
  rewrite dir_dir'_dot, Z, Z' by apply orth_I. repeat split; ring.
Qed.

Lemma norm_opp_dir' X : norm (vopp (dir' I3 X)) = 1.
Proof.
  replace (vopp (dir' I3 X)) with (smul (-1) (dir' I3 X)) by vec_ring.
  rewrite norm_smul, norm_dir', Rabs_left by (apply orth_I || lra). ring.
Qed.

Lemma dirs_dot th X : dot (dir I3 th) (dir I3 X) = cos (th - X).
Proof. unfold dir. rewrite orthogonal_dot by apply orth_I. vec_simpl. rewrite cos_minus. ring. Qed.

(** External gears: both lines run from the first base circle to the second, touching both, and are
    mirror images in the line of centres; an error exactly if the base circles overlap or the gears
    are concentric. *)
Theorem C50_external c1 c2 rb1 rb2 ra1 ra2 p0 p1 q0 q1 : dot (vsub c2 c1) OUT = 0 -> 0 <= rb1 -> 0 <= rb2 ->
  loa_lines c1 c2 rb1 rb2 false false ra1 ra2 = Ok ((p0, p1), (q0, q1)) ->
  exists n n' L, segment p0 p1 n L /\ segment q0 q1 n' L /\
    L * L + (rb1 + rb2) * (rb1 + rb2) = norm (vsub c2 c1) * norm (vsub c2 c1) /\
    line_tangent c1 OUT p0 n rb1 /\ line_tangent c2 OUT p1 n rb2 /\
    line_tangent c1 OUT q0 n' rb1 /\ line_tangent c2 OUT q1 n' rb2 /\
    mirror_images c1 c2 p0 q0 /\ mirror_images c1 c2 p1 q1.
Proof.
  intros Z R1 R2. unfold loa_lines, normalize_r.
  destruct (Req_EM_T (norm (vsub c2 c1)) 0) as [|D0]; [discriminate|]. cbn [bind].
  destruct (planar_diff c1 c2 D0 Z) as (th & EC & EU). rewrite EU.
  set (d := norm (vsub c2 c1)) in *. assert (D : 0 < d) by (pose proof (norm_nonneg (vsub c2 c1)); fold d in H; lra).
  destruct (Rlt_dec 1 (Rabs (rb2 + rb1) / d)) as [|K]; [discriminate|].
  rewrite Rplus_comm in K. apply acos_range in K; [|exact D].
  pose proof (cos_acos _ K) as CA. pose proof (acos_bound ((rb1 + rb2) / d)) as AB.
  set (al := acos ((rb1 + rb2) / d)) in *. intros Q. injection Q as <- <- <- <-.
  rewrite !rotate_opp, !rotate_dir.
  assert (CD : d * cos al = rb1 + rb2) by (rewrite CA; field; lra).
  assert (SA : 0 <= sin al) by (apply sin_ge_0; lra).
  assert (ED : vsub c2 c1 = smul d (dir I3 th)) by (rewrite EC at 1; vec_ring).
  pose proof (sc1 al) as SC.
  exists (vopp (dir' I3 (th + al))), (dir' I3 (th + - al)), (d * sin al).
  assert (LL : 0 <= d * sin al) by (apply Rmult_le_pos; lra).
  split; [split; [apply norm_opp_dir'|split; [exact LL|]]|].
  { rewrite EC. rewrite (dir_back I3 th al) at 1.
    replace (smul d (vsub (smul (cos al) (dir I3 (th + al))) (smul (sin al) (dir' I3 (th + al)))))
      with (vsub (smul (d * cos al) (dir I3 (th + al))) (smul (d * sin al) (dir' I3 (th + al)))) by vec_ring.
    rewrite CD. vec_ring. }
  split; [split; [apply norm_dir', orth_I|split; [exact LL|]]|].
  { rewrite EC. rewrite (dir_back I3 th (- al)) at 1. rewrite cos_neg, sin_neg.
    replace (smul d (vsub (smul (cos al) (dir I3 (th + - al))) (smul (- sin al) (dir' I3 (th + - al)))))
      with (vadd (smul (d * cos al) (dir I3 (th + - al))) (smul (d * sin al) (dir' I3 (th + - al)))) by vec_ring.
    rewrite CD. vec_ring. }
  split; [rewrite <- CD; transitivity (d * d * (sin al * sin al + cos al * cos al)); [ring|rewrite SC; ring]|].
  split; [apply tangent_at; exact R1|]. split; [apply tangent_at; exact R2|].
  assert (TO : forall c B n r, line_tangent c OUT B (vopp n) r -> line_tangent c OUT B n r).
  { intros c B n r (A1 & A2 & A3 & A4). split; [exact A1|]. split; [|split; [exact A3|]].
    - replace (dot (vsub B c) (vopp n)) with (- dot (vsub B c) n) in A2 by vec_ring. lra.
    - replace (dot (vopp n) OUT) with (- dot n OUT) in A4 by vec_ring. lra. }
  split; [apply TO, tangent_at; exact R1|]. split; [apply TO, tangent_at; exact R2|].
  unfold mirror_images. rewrite ED.
  split; split.
  - replace (vsub (vadd c1 (smul rb1 (dir I3 (th + al)))) (vadd c1 (smul rb1 (dir I3 (th + - al)))))
      with (smul rb1 (vsub (dir I3 (th + al)) (dir I3 (th + - al)))) by vec_ring.
    rewrite dot_smul_l, dot_vsub_l, !dot_smul_r, !dirs_dot.
    replace (th + al - th) with al by ring. replace (th + - al - th) with (- al) by ring. rewrite cos_neg. ring.
  - exists (2 * rb1 * cos al / d). rewrite smul_smul. replace (2 * rb1 * cos al / d * d) with (2 * rb1 * cos al) by (field; lra).
    rewrite !dir_plus, cos_neg, sin_neg. vec_ring.
  - replace (vsub (vadd c2 (smul rb2 (vopp (dir I3 (th + al))))) (vadd c2 (smul rb2 (vopp (dir I3 (th + - al))))))
      with (smul (- rb2) (vsub (dir I3 (th + al)) (dir I3 (th + - al)))) by vec_ring.
    rewrite dot_smul_l, dot_vsub_l, !dot_smul_r, !dirs_dot.
    replace (th + al - th) with al by ring. replace (th + - al - th) with (- al) by ring. rewrite cos_neg. ring.
  - exists (2 * (d - rb2 * cos al) / d). rewrite smul_smul.
    replace (2 * (d - rb2 * cos al) / d * d) with (2 * (d - rb2 * cos al)) by (field; lra).
    rewrite !dir_plus, cos_neg, sin_neg. rewrite EC. vec_ring.
Qed.

Theorem C50_external_error c1 c2 rb1 rb2 ra1 ra2 : 0 <= rb1 -> 0 <= rb2 ->
  ((exists l, loa_lines c1 c2 rb1 rb2 false false ra1 ra2 = Ok l) <->
   c1 <> c2 /\ rb1 + rb2 <= norm (vsub c2 c1)).
Proof.
  intros R1 R2. unfold loa_lines, normalize_r. pose proof (norm_nonneg (vsub c2 c1)) as NN.
  destruct (Req_EM_T (norm (vsub c2 c1)) 0) as [D0|D0]; cbn [bind].
  - split; [intros (l & E); discriminate|]. intros (NE & _). exfalso. apply NE.
    apply norm_zero in D0. assert (c2 = vadd (vsub c2 c1) c1) by vec_ring. rewrite H, D0. vec_ring.
  - rewrite Rabs_right by lra.
    assert (EQ : 1 < (rb2 + rb1) / norm (vsub c2 c1) <-> norm (vsub c2 c1) < rb1 + rb2).
    { split; intros L.
      - apply (Rmult_lt_compat_r (norm (vsub c2 c1))) in L; [|lra]. unfold Rdiv in L. rewrite Rmult_assoc, Rinv_l in L by exact D0. lra.
      - apply (Rmult_lt_reg_r (norm (vsub c2 c1))); [lra|]. unfold Rdiv. rewrite Rmult_assoc, Rinv_l by exact D0. lra. }
    destruct (Rlt_dec 1 ((rb2 + rb1) / norm (vsub c2 c1))) as [L|L].
    + split; [intros (l & E); discriminate|]. intros (_ & B). apply EQ in L. lra.
    + split; [|intros _; eexists; reflexivity]. intros _. split.
      * intros ->. apply D0. rewrite vsub_diag. unfold norm. replace (dot ORIGIN ORIGIN) with 0 by (vec_simpl; ring). apply sqrt_0.
      * apply Rnot_lt_le. intros B. apply L, EQ, B.
Qed.

(** Pinion and ring: the line starts where it touches the pinion's base circle, ends on the pinion's
    addendum circle, and, prolonged backwards, touches the ring's base circle. *)
Definition pinion_line (cp cr : vec) (rbp rbr rap : R) (s e : vec) : Prop :=
  exists n F len L, segment s e n len /\ segment F s n L /\
    line_tangent cp OUT s n rbp /\ line_tangent cr OUT F n rbr /\ norm (vsub e cp) = rap.

Lemma pinion_line_at cp cr rbp rbr rap sg X L : 0 <= rbp -> 0 <= rbr -> 0 <= rap -> (sg = 1 \/ sg = -1) -> 0 <= L ->
  0 <= rap * rap - rbp * rbp ->
  cp = vadd (vadd cr (smul (rbp - rbr) (dir I3 X))) (smul (L * sg) (dir' I3 X)) ->
  pinion_line cp cr rbp rbr rap (vadd cp (smul rbp (vopp (dir I3 X))))
    (vadd (vadd cp (smul rbp (vopp (dir I3 X)))) (smul (sqrt (rap * rap - rbp * rbp) * sg) (dir' I3 X))).
Proof.
  intros Hp Hr Ha Hs HL HQ E. set (len := sqrt (rap * rap - rbp * rbp)).
  assert (LL : len * len = rap * rap - rbp * rbp) by (apply sqrt_sqrt; lra).
  exists (smul sg (dir' I3 X)), (vadd cr (smul rbr (vopp (dir I3 X)))), len, L.
  assert (NN : norm (smul sg (dir' I3 X)) = 1).
  { rewrite norm_smul, norm_dir' by apply orth_I. destruct Hs as [-> | ->]; rewrite ?Rabs_left, ?Rabs_right by lra; ring. }
  assert (TG : forall c B r, line_tangent c OUT B (vopp (dir' I3 X)) r -> line_tangent c OUT B (smul sg (dir' I3 X)) r).
  { intros c B r (A1 & A2 & A3 & A4). split; [exact A1|].
    replace (smul sg (dir' I3 X)) with (smul (- sg) (vopp (dir' I3 X))) by vec_ring.
    rewrite dot_smul_r, dot_smul_l, A2, A4. repeat split; try ring. exact A3. }
  split; [split; [exact NN|split; [apply sqrt_pos|rewrite smul_smul; reflexivity]]|].
  split; [split; [exact NN|split; [exact HL|]]|].
  { rewrite E. rewrite smul_smul. generalize (dir I3 X) (dir' I3 X). clear. intros a b. destruct cr, a, b. apply vec_eq; vec_simpl; ring. }
  split; [apply TG, tangent_at, Hp|]. split; [apply TG, tangent_at, Hr|].
  apply norm_eq; [exact Ha|].
  replace (vsub (vadd (vadd cp (smul rbp (vopp (dir I3 X)))) (smul (len * sg) (dir' I3 X))) cp)
    with (vsub (smul (len * sg) (dir' I3 X)) (smul rbp (dir I3 X))) by (generalize (dir I3 X) (dir' I3 X); clear; intros a b; destruct cp, a, b; apply vec_eq; vec_simpl; ring).
  pose proof (dir_dot I3 X orth_I) as D1. pose proof (dir'_dot I3 X orth_I) as D2. pose proof (dir_dir'_dot I3 X orth_I) as D3.
  transitivity (len * len * (sg * sg) * dot (dir' I3 X) (dir' I3 X) - 2 * (len * sg * rbp) * dot (dir I3 X) (dir' I3 X) + rbp * rbp * dot (dir I3 X) (dir I3 X)).
  { generalize (dir I3 X) (dir' I3 X). clear. intros a b. destruct a, b. vec_simpl. ring. }
  rewrite D1, D2, D3, LL. replace (sg * sg) with 1 by (destruct Hs as [-> | ->]; ring). ring.
Qed.

Lemma mirror_at c th x s : loa_mirror c (dir I3 th) (vadd (vadd c (smul x (dir I3 th))) s) =
  vadd (vadd c (smul x (dir I3 th))) (loa_mirror ORIGIN (dir I3 th) s).
Proof.
  unfold loa_mirror. pose proof (dir_dot I3 th orth_I) as D. set (u := dir I3 th) in *. clearbody u.
  replace (vsub (vadd (vadd c (smul x u)) s) c) with (vadd (smul x u) s) by vec_ring.
  replace (vsub s ORIGIN) with s by vec_ring. rewrite dot_vadd_l, dot_smul_l, D.
  generalize (dot s u). clear. intros k. destruct c, u, s. apply vec_eq; vec_simpl; ring.
Qed.
Lemma mirror_O th a b : loa_mirror ORIGIN (dir I3 th) (vadd (smul a (dir I3 th)) (smul b (dir' I3 th))) =
  vadd (smul a (dir I3 th)) (smul (- b) (dir' I3 th)).
Proof.
  unfold loa_mirror. pose proof (dir_dot I3 th orth_I) as D. pose proof (dir_dir'_dot I3 th orth_I) as D'.
  set (u := dir I3 th) in *. set (t := dir' I3 th) in *. clearbody u t.
  replace (vsub (vadd (smul a u) (smul b t)) ORIGIN) with (vadd (smul a u) (smul b t)) by vec_ring.
  rewrite dot_vadd_l, !dot_smul_l, D, (dot_comm t u), D'.
  clear. destruct u, t. apply vec_eq; vec_simpl; ring.
Qed.

(** Mirroring the end points [c + x u - r dir X + l dir' X]. *)
Lemma mirror_line c th x al r l :
  loa_mirror c (dir I3 th) (vadd (vadd (vadd c (smul x (dir I3 th))) (smul r (vopp (dir I3 (th + al))))) (smul l (dir' I3 (th + al)))) =
  vadd (vadd (vadd c (smul x (dir I3 th))) (smul r (vopp (dir I3 (th - al))))) (smul (- l) (dir' I3 (th - al))).
Proof.
  replace (vadd (vadd (vadd c (smul x (dir I3 th))) (smul r (vopp (dir I3 (th + al))))) (smul l (dir' I3 (th + al))))
    with (vadd (vadd c (smul x (dir I3 th))) (vadd (smul (- r * cos al - l * sin al) (dir I3 th)) (smul (- r * sin al + l * cos al) (dir' I3 th)))).
  2:{ rewrite dir_plus, dir'_plus. generalize (dir I3 th) (dir' I3 th). clear. intros a b. destruct c, a, b. apply vec_eq; vec_simpl; ring. }
  rewrite (mirror_at c th x), mirror_O. replace (th - al) with (th + - al) by ring. rewrite (dir_plus I3 th (- al)), (dir'_plus I3 th (- al)), cos_neg, sin_neg.
  generalize (dir I3 th) (dir' I3 th). clear. intros a b. destruct c, a, b. apply vec_eq; vec_simpl; ring.
Qed.

Lemma mirror_images_loa c1 c2 u p d : d <> 0 -> vsub c2 c1 = smul d u -> dot u u = 1 ->
  mirror_images c1 c2 p (loa_mirror c1 u p).
Proof.
  intros D E U. unfold mirror_images, loa_mirror. rewrite E. split.
  - replace (vsub p (vsub p (smul 2 (vsub (vsub p c1) (smul (dot (vsub p c1) u) u)))))
      with (smul 2 (vsub (vsub p c1) (smul (dot (vsub p c1) u) u))) by (generalize (dot (vsub p c1) u); clear; intros k; destruct p, c1, u; apply vec_eq; vec_simpl; ring).
    rewrite dot_smul_l, dot_smul_r, dot_vsub_l, dot_smul_l, U. ring.
  - exists (2 * dot (vsub p c1) u / d). rewrite smul_smul.
    replace (2 * dot (vsub p c1) u / d * d) with (2 * dot (vsub p c1) u) by (field; exact D).
    generalize (dot (vsub p c1) u). clear. intros k. destruct p, c1, u. apply vec_eq; vec_simpl; ring.
Qed.

(** The first gear is a ring. *)
Theorem C50_ring_first c1 c2 rb1 rb2 ring2 ra1 ra2 p0 p1 q0 q1 : dot (vsub c2 c1) OUT = 0 -> 0 <= rb1 -> 0 <= rb2 -> 0 <= ra2 ->
  loa_lines c1 c2 rb1 rb2 true ring2 ra1 ra2 = Ok ((p0, p1), (q0, q1)) ->
  pinion_line c2 c1 rb2 rb1 ra2 p0 p1 /\ pinion_line c2 c1 rb2 rb1 ra2 q0 q1 /\
  mirror_images c1 c2 p0 q0 /\ mirror_images c1 c2 p1 q1.
Proof.
  intros Z R1 R2 RA. unfold loa_lines, normalize_r.
  destruct (Req_EM_T (norm (vsub c2 c1)) 0) as [|D0]; [discriminate|]. cbn [bind].
  destruct (planar_diff c1 c2 D0 Z) as (th & EC & EU). rewrite EU.
  set (d := norm (vsub c2 c1)) in *. assert (D : 0 < d) by (pose proof (norm_nonneg (vsub c2 c1)); fold d in H; lra).
  destruct (Rlt_dec 1 (Rabs (rb2 - rb1) / d)) as [|K]; [discriminate|].
  apply acos_range in K; [|exact D].
  pose proof (cos_acos _ K) as CA. pose proof (acos_bound ((rb2 - rb1) / d)) as AB.
  set (al := acos ((rb2 - rb1) / d)) in *.
  destruct (Rlt_dec (ra2 * ra2 - rb2 * rb2) 0) as [|HQ]; [discriminate|]. apply Rnot_lt_le in HQ.
  set (len := sqrt (ra2 * ra2 - rb2 * rb2)).
  assert (CD : d * cos al = rb2 - rb1) by (rewrite CA; field; lra).
  assert (SA : 0 <= sin al) by (apply sin_ge_0; lra).
  assert (LL : 0 <= d * sin al) by (apply Rmult_le_pos; lra).
  assert (ED : vsub c2 c1 = smul d (dir I3 th)) by (rewrite EC at 1; vec_ring).
  intros Q. injection Q as <- <- <- <-. rewrite !rotate_opp, !rotate_dir.
  replace (th + (- PI / 2 + al)) with (th + al - PI / 2) by field. rewrite dir_quarter.
  set (s1 := vadd c2 (smul rb2 (vopp (dir I3 (th + al))))).
  replace (vadd s1 (smul len (vopp (dir' I3 (th + al))))) with (vadd s1 (smul (len * -1) (dir' I3 (th + al))))
    by (generalize s1 (dir' I3 (th + al)); clear; intros a b; destruct a, b; apply vec_eq; vec_simpl; ring).
  assert (M0 : loa_mirror c1 (dir I3 th) s1 = vadd c2 (smul rb2 (vopp (dir I3 (th - al))))).
  { pose proof (mirror_line c1 th d al rb2 0) as ML. rewrite <- EC in ML. fold s1 in ML.
    replace (vadd s1 (smul 0 (dir' I3 (th + al)))) with s1 in ML by vec_ring. rewrite ML.
    generalize (dir' I3 (th - al)) (vopp (dir I3 (th - al))). clear. intros a b. destruct c2, a, b. apply vec_eq; vec_simpl; ring. }
  assert (M1 : loa_mirror c1 (dir I3 th) (vadd s1 (smul (len * -1) (dir' I3 (th + al)))) =
    vadd (vadd c2 (smul rb2 (vopp (dir I3 (th - al))))) (smul (len * 1) (dir' I3 (th - al)))).
  { pose proof (mirror_line c1 th d al rb2 (len * -1)) as ML. rewrite <- EC in ML. fold s1 in ML. rewrite ML. f_equal. f_equal. ring. }
  split; [|split; [rewrite M0, M1|]].
  - apply (pinion_line_at c2 c1 rb2 rb1 ra2 (-1) (th + al) (d * sin al)); try assumption; [right; reflexivity|].
    rewrite EC at 1. rewrite (dir_back I3 th al) at 1. rewrite <- CD.
    generalize (dir I3 (th + al)) (dir' I3 (th + al)). clear. intros a b. destruct c1, a, b. apply vec_eq; vec_simpl; ring.
  - apply (pinion_line_at c2 c1 rb2 rb1 ra2 1 (th - al) (d * sin al)); try assumption; [left; reflexivity|].
    rewrite EC at 1. rewrite (dir_back I3 th (- al)) at 1. rewrite cos_neg, sin_neg, <- CD. unfold Rminus.
    generalize (dir I3 (th + - al)) (dir' I3 (th + - al)). clear. intros a b. destruct c1, a, b. apply vec_eq; vec_simpl; ring.
  - split; apply (mirror_images_loa c1 c2 (dir I3 th) _ d); [lra|exact ED|apply dir_dot, orth_I|lra|exact ED|apply dir_dot, orth_I].
Qed.

(** Only the second gear is a ring. *)
Theorem C50_ring_second c1 c2 rb1 rb2 ra1 ra2 p0 p1 q0 q1 : dot (vsub c2 c1) OUT = 0 -> 0 <= rb1 -> 0 <= rb2 -> 0 <= ra1 ->
  loa_lines c1 c2 rb1 rb2 false true ra1 ra2 = Ok ((p0, p1), (q0, q1)) ->
  pinion_line c1 c2 rb1 rb2 ra1 p0 p1 /\ pinion_line c1 c2 rb1 rb2 ra1 q0 q1 /\
  mirror_images c1 c2 p0 q0 /\ mirror_images c1 c2 p1 q1.
Proof.
  intros Z R1 R2 RA. unfold loa_lines, normalize_r.
  destruct (Req_EM_T (norm (vsub c2 c1)) 0) as [|D0]; [discriminate|]. cbn [bind].
  destruct (planar_diff c1 c2 D0 Z) as (th & EC & EU). rewrite EU.
  set (d := norm (vsub c2 c1)) in *. assert (D : 0 < d) by (pose proof (norm_nonneg (vsub c2 c1)); fold d in H; lra).
  destruct (Rlt_dec 1 (Rabs (rb2 - rb1) / d)) as [|K]; [discriminate|].
  apply acos_range in K; [|exact D].
  pose proof (cos_acos _ K) as CA. pose proof (acos_bound ((rb2 - rb1) / d)) as AB.
  set (al := acos ((rb2 - rb1) / d)) in *.
  destruct (Rlt_dec (ra1 * ra1 - rb1 * rb1) 0) as [|HQ]; [discriminate|]. apply Rnot_lt_le in HQ.
  set (len := sqrt (ra1 * ra1 - rb1 * rb1)).
  assert (CD : d * cos al = rb2 - rb1) by (rewrite CA; field; lra).
  assert (SA : 0 <= sin al) by (apply sin_ge_0; lra).
  assert (LL : 0 <= d * sin al) by (apply Rmult_le_pos; lra).
  assert (ED : vsub c2 c1 = smul d (dir I3 th)) by (rewrite EC at 1; vec_ring).
  intros Q. injection Q as <- <- <- <-. rewrite !rotate_opp, !rotate_dir.
  replace (th + (- PI / 2 + al)) with (th + al - PI / 2) by field. rewrite dir_quarter.
  set (s1 := vadd c1 (smul rb1 (vopp (dir I3 (th + al))))).
  replace (vsub s1 (smul len (vopp (dir' I3 (th + al))))) with (vadd s1 (smul (len * 1) (dir' I3 (th + al))))
    by (generalize s1 (dir' I3 (th + al)); clear; intros a b; destruct a, b; apply vec_eq; vec_simpl; ring).
  assert (C10 : vadd c1 (smul 0 (dir I3 th)) = c1) by (generalize (dir I3 th); clear; intros a; destruct c1, a; apply vec_eq; vec_simpl; ring).
  assert (M0 : loa_mirror c1 (dir I3 th) s1 = vadd c1 (smul rb1 (vopp (dir I3 (th - al))))).
  { pose proof (mirror_line c1 th 0 al rb1 0) as ML. rewrite C10 in ML. fold s1 in ML.
    replace (vadd s1 (smul 0 (dir' I3 (th + al)))) with s1 in ML by vec_ring. rewrite ML.
    generalize (dir' I3 (th - al)) (vopp (dir I3 (th - al))). clear. intros a b. destruct c1, a, b. apply vec_eq; vec_simpl; ring. }
  assert (M1 : loa_mirror c1 (dir I3 th) (vadd s1 (smul (len * 1) (dir' I3 (th + al)))) =
    vadd (vadd c1 (smul rb1 (vopp (dir I3 (th - al))))) (smul (len * -1) (dir' I3 (th - al)))).
  { pose proof (mirror_line c1 th 0 al rb1 (len * 1)) as ML. rewrite C10 in ML. fold s1 in ML. rewrite ML. f_equal. f_equal. ring. }
  split; [|split; [rewrite M0, M1|]].
  - apply (pinion_line_at c1 c2 rb1 rb2 ra1 1 (th + al) (d * sin al)); try assumption; [left; reflexivity|].
    rewrite EC at 1. rewrite (dir_back I3 th al) at 1. replace (rb1 - rb2) with (- (d * cos al)) by lra.
    generalize (dir I3 (th + al)) (dir' I3 (th + al)). clear. intros a b. destruct c1, a, b. apply vec_eq; vec_simpl; ring.
  - apply (pinion_line_at c1 c2 rb1 rb2 ra1 (-1) (th - al) (d * sin al)); try assumption; [right; reflexivity|].
    rewrite EC at 1. rewrite (dir_back I3 th (- al)) at 1. replace (rb1 - rb2) with (- (d * cos al)) by lra. rewrite cos_neg, sin_neg. unfold Rminus.
    generalize (dir I3 (th + - al)) (dir' I3 (th + - al)). clear. intros a b. destruct c1, a, b. apply vec_eq; vec_simpl; ring.
  - split; apply (mirror_images_loa c1 c2 (dir I3 th) _ d); [lra|exact ED|apply dir_dot, orth_I|lra|exact ED|apply dir_dot, orth_I].
Qed.

(** A ring pair gives lines exactly if the centres differ by no less than the difference of the base
    radii and the pinion's addendum circle is not inside its base circle. *)
Theorem C50_ring_error c1 c2 rb1 rb2 ring1 ra1 ra2 : 0 <= rb1 -> 0 <= rb2 -> 0 <= ra1 -> 0 <= ra2 ->
  ((exists l, loa_lines c1 c2 rb1 rb2 ring1 true ra1 ra2 = Ok l) <->
   c1 <> c2 /\ Rabs (rb2 - rb1) <= norm (vsub c2 c1) /\ (if ring1 then rb2 <= ra2 else rb1 <= ra1)).
Proof.
  intros R1 R2 A1 A2. unfold loa_lines, normalize_r. pose proof (norm_nonneg (vsub c2 c1)) as NN.
  assert (SQ : forall r a, 0 <= r -> 0 <= a -> (r <= a <-> ~ a * a - r * r < 0)) by (intros r a P Q; split; intros; nra).
  destruct (Req_EM_T (norm (vsub c2 c1)) 0) as [D0|D0]; cbn [bind].
  - split; [intros (l & E); discriminate|]. intros (NE & _). exfalso. apply NE.
    apply norm_zero in D0. assert (c2 = vadd (vsub c2 c1) c1) by vec_ring. rewrite H, D0. vec_ring.
  - assert (EQ : 1 < Rabs (rb2 - rb1) / norm (vsub c2 c1) <-> norm (vsub c2 c1) < Rabs (rb2 - rb1)).
    { split; intros L.
      - apply (Rmult_lt_compat_r (norm (vsub c2 c1))) in L; [|lra]. unfold Rdiv in L. rewrite Rmult_assoc, Rinv_l in L by exact D0. lra.
      - apply (Rmult_lt_reg_r (norm (vsub c2 c1))); [lra|]. unfold Rdiv. rewrite Rmult_assoc, Rinv_l by exact D0. lra. }
    assert (NE : c1 <> c2).
    { intros ->. apply D0. rewrite vsub_diag. unfold norm. replace (dot ORIGIN ORIGIN) with 0 by (vec_simpl; ring). apply sqrt_0. }
    destruct ring1; destruct (Rlt_dec 1 (Rabs (rb2 - rb1) / norm (vsub c2 c1))) as [L|L].
    + split; [intros (l & E); discriminate|]. intros (_ & B & _). apply EQ in L. lra.
    + destruct (Rlt_dec (ra2 * ra2 - rb2 * rb2) 0) as [Q|Q].
      * split; [intros (l & E); discriminate|]. intros (_ & _ & B). apply SQ in B; try assumption. contradiction.
      * split; [intros _|intros _; eexists; reflexivity]. split; [exact NE|]. split; [|apply SQ; assumption].
        apply Rnot_lt_le. intros B. apply L, EQ, B.
    + split; [intros (l & E); discriminate|]. intros (_ & B & _). apply EQ in L. lra.
    + destruct (Rlt_dec (ra1 * ra1 - rb1 * rb1) 0) as [Q|Q].
      * split; [intros (l & E); discriminate|]. intros (_ & _ & B). apply SQ in B; try assumption. contradiction.
      * split; [intros _|intros _; eexists; reflexivity]. split; [exact NE|]. split; [|apply SQ; assumption].
        apply Rnot_lt_le. intros B. apply L, EQ, B.
Qed.
Example C50_ring_first_example : exists p0 p1 q0 q1,
  loa_lines ORIGIN (V 10 0 0) 8 3 true true 9 4 = Ok ((p0, p1), (q0, q1)) /\
  pinion_line (V 10 0 0) ORIGIN 3 8 4 p0 p1 /\ pinion_line (V 10 0 0) ORIGIN 3 8 4 q0 q1.
Proof.
  assert (N10 : norm (vsub (V 10 0 0) ORIGIN) = 10) by (apply norm_eq; [lra|vec_simpl; ring]).
  destruct (proj2 (C50_ring_error ORIGIN (V 10 0 0) 8 3 true 9 4 ltac:(lra) ltac:(lra) ltac:(lra) ltac:(lra)))
    as ([[p0 p1] [q0 q1]] & E).
  { rewrite N10, Rabs_left by lra. split; [intros Z; injection Z; lra|]. split; [lra|cbn; lra]. }
  destruct (C50_ring_first ORIGIN (V 10 0 0) 8 3 true 9 4 p0 p1 q0 q1) as (A & B & _);
    [vec_simpl; ring|lra|lra|lra|exact E|]. exists p0, p1, q0, q1. auto.
Qed.
Example C50_ring_second_example : exists p0 p1 q0 q1,
  loa_lines ORIGIN (V 10 0 0) 3 8 false true 4 9 = Ok ((p0, p1), (q0, q1)) /\
  pinion_line ORIGIN (V 10 0 0) 3 8 4 p0 p1 /\ pinion_line ORIGIN (V 10 0 0) 3 8 4 q0 q1.
Proof.
  assert (N10 : norm (vsub (V 10 0 0) ORIGIN) = 10) by (apply norm_eq; [lra|vec_simpl; ring]).
  destruct (proj2 (C50_ring_error ORIGIN (V 10 0 0) 3 8 false 4 9 ltac:(lra) ltac:(lra) ltac:(lra) ltac:(lra)))
    as ([[p0 p1] [q0 q1]] & E).
  { rewrite N10, Rabs_right by lra. split; [intros Z; injection Z; lra|]. split; [lra|cbn; lra]. }
  destruct (C50_ring_second ORIGIN (V 10 0 0) 3 8 4 9 p0 p1 q0 q1) as (A & B & _);
    [vec_simpl; ring|lra|lra|lra|exact E|]. exists p0, p1, q0, q1. auto.
Qed.
Example C50_external_example : exists p0 p1 q0 q1 n n' L,
  loa_lines ORIGIN (V 10 0 0) 3 3 false false 4 4 = Ok ((p0, p1), (q0, q1)) /\
  segment p0 p1 n L /\ segment q0 q1 n' L /\ L * L + (3 + 3) * (3 + 3) = 10 * 10.
Proof.
  assert (N10 : norm (vsub (V 10 0 0) ORIGIN) = 10) by (apply norm_eq; [lra|vec_simpl; ring]).
  destruct (proj2 (C50_external_error ORIGIN (V 10 0 0) 3 3 4 4 ltac:(lra) ltac:(lra))) as ([[p0 p1] [q0 q1]] & E).
  { rewrite N10. split; [intros Z; injection Z; lra|lra]. }
  destruct (C50_external ORIGIN (V 10 0 0) 3 3 4 4 p0 p1 q0 q1) as (n & n' & L & A & B & C & _);
    [vec_simpl; ring|lra|lra|exact E|]. rewrite N10 in C.
  exists p0, p1, q0, q1, n, n', L. auto.
Qed.

(** Without the plane the claim is false: the code turns about the global z axis. Two gears whose
    centres differ along z get lines that run along the line of centres. *)
Theorem C50_tilted_refuted : exists c1 c2 rb1 rb2 p0 p1 q0 q1, 0 < rb1 /\ 0 < rb2 /\ rb1 + rb2 < norm (vsub c2 c1) /\
  loa_lines c1 c2 rb1 rb2 false false 0 0 = Ok ((p0, p1), (q0, q1)) /\
  dot (vsub p0 c1) (vsub p1 p0) <> 0 /\ dot (vsub q0 c1) (vsub q1 q0) <> 0.
Proof.
  assert (N : norm (vsub (V 0 0 4) (V 0 0 0)) = 4) by (apply norm_eq; vec_simpl; lra).
  assert (U : smul (/ 4) (vsub (V 0 0 4) (V 0 0 0)) = OUT) by (apply vec_eq; vec_simpl; field).
  assert (RO : forall a, rotate_vector OUT a = OUT) by (intros a; unfold rotate_vector; vec_ring).
  exists (V 0 0 0), (V 0 0 4), 1, 1. do 4 eexists. rewrite N. split; [lra|]. split; [lra|]. split; [lra|].
  split.
  - unfold loa_lines, normalize_r. rewrite N. destruct (Req_EM_T 4 0) as [B|_]; [lra|]. cbn [bind].
    destruct (Rlt_dec 1 (Rabs (1 + 1) / 4)) as [B|_]; [rewrite Rabs_right in B by lra; lra|]. reflexivity.
  - unfold normalize. rewrite N, U, !rotate_opp, !RO. split; vec_simpl; lra.
Qed.

(** Orientations about the z axis. *)
Lemma upright_dirs O : rotation O -> col3 O = OUT ->
  exists f, forall a, dir O a = dir I3 (a + f) /\ dir' O a = dir' I3 (a + f).
Proof.
  intros RO C. assert (HO : orthogonal O) by apply RO.
  assert (Z : dot (dir O 0) (col3 I3) = 0) by (rewrite col3_I, <- C; apply dir_z, HO).
  pose proof (dir_of_plane I3 _ orth_I Z) as E. rewrite norm_dir in E by exact HO.
  set (f := angle_xy (vmat (dir O 0) I3)) in *.
  assert (E0 : dir O 0 = dir I3 f) by (rewrite E; vec_ring).
  assert (E1 : dir' O 0 = dir' I3 f).
  { transitivity (cross OUT (dir O 0)).
    - rewrite <- C. replace (col3 O) with (mapp O OUT) by vec_ring. unfold dir. rewrite <- rotation_cross by exact RO.
      unfold dir'. f_equal. apply vec_eq; vec_simpl; ring.
    - rewrite E0. unfold dir, dir'. apply vec_eq; vec_simpl; ring. }
  exists f. intros a. replace a with (0 + a) at 1 3 by ring. rewrite (Rplus_comm a f).
  rewrite (dir_plus O), (dir'_plus O), (dir_plus I3 f a), (dir'_plus I3 f a), E0, E1. split; reflexivity.
Qed.

(** The line along which the points of contact run determines where it touches the base circle. *)
Lemma string_line (P : R -> vec) c B u t v : (forall y, P y = vadd c (vadd u (smul y v))) -> (forall y, P y = vadd B (smul y t)) ->
  B = vadd c u /\ t = v.
Proof.
  intros H1 H2. pose proof (H1 0) as A0. rewrite H2 in A0. pose proof (H1 1) as A1. rewrite H2 in A1.
  assert (E : B = vadd c u).
  { replace B with (vadd B (smul 0 t)) by (clear; vec_ring). rewrite A0. clear. vec_ring. }
  split; [exact E|]. replace t with (vsub (vadd B (smul 1 t)) B) by (clear; vec_ring). rewrite A1, E. clear. vec_ring.
Qed.

(** The internal common tangent is determined by its direction of running. *)
Lemma tangent_angle c1 c2 rb1 rb2 D a th tau s B2 n : 0 < rb1 -> 0 < rb2 -> 0 < D -> - PI / 2 < a < PI / 2 -> (s = 1 \/ s = -1) ->
  c2 = vadd c1 (smul D (dir I3 th)) -> D * cos a = rb1 + rb2 ->
  n = smul (- s) (dir' I3 tau) -> B2 = vadd (vadd c1 (smul rb1 (dir I3 tau))) (smul (D * sin a) n) ->
  line_tangent c2 OUT B2 n rb2 ->
  dir I3 tau = dir I3 (th + s * a) /\ dir' I3 tau = dir' I3 (th + s * a).
Proof.
  intros R1 R2 HD Ha Hs EC CD En EB (T1 & T2 & _ & _).
  assert (SS : s * s = 1) by (destruct Hs as [-> | ->]; ring).
  set (w := vsub B2 c2) in *.
  assert (W : w = vsub (vsub (smul rb1 (dir I3 tau)) (smul (D * sin a * s) (dir' I3 tau))) (smul D (dir I3 th))).
  { unfold w. rewrite EB, EC, En. generalize (dir I3 tau) (dir' I3 tau) (dir I3 th). clear. intros p q r. destruct c1, p, q, r. apply vec_eq; vec_simpl; ring. }
  pose proof (dir_dot I3 tau orth_I) as D1. pose proof (dir'_dot I3 tau orth_I) as D2. pose proof (dir_dir'_dot I3 tau orth_I) as D3.
  pose proof (dirs_dot th tau) as D4. pose proof (dir_dir'_angle I3 th tau orth_I) as D5.
  assert (Q' : dot w (dir' I3 tau) = 0).
  { rewrite En, dot_smul_r in T2. destruct Hs as [-> | ->]; lra. }
  assert (Q1 : sin (th - tau) = - s * sin a).
  { rewrite W, !dot_vsub_l, !dot_smul_l, D3, D2, D5 in Q'. apply (Rmult_eq_reg_l D); lra. }
  assert (WX : dot w (dir I3 tau) = rb1 - D * cos (th - tau)).
  { rewrite W, !dot_vsub_l, !dot_smul_l, (dot_comm (dir' I3 tau)), D3, D1, D4. ring. }
  assert (WW : dot w w = rb2 * rb2) by (rewrite <- norm_sqr, T1; ring).
  assert (WD : dot w w = (rb1 - D * cos (th - tau)) * (rb1 - D * cos (th - tau))).
  { pose proof (dot_smul_l) as _. rewrite W at 1. rewrite !dot_vsub_l, !dot_smul_l, (dot_comm (dir I3 tau) w), (dot_comm (dir' I3 tau) w), (dot_comm (dir I3 th) w), WX, Q'.
    assert (dot w (dir I3 th) = rb1 * cos (th - tau) - D * sin a * s * sin (th - tau) - D).
    { rewrite W, !dot_vsub_l, !dot_smul_l, (dot_comm (dir I3 tau)), D4, (dot_comm (dir' I3 tau)), D5, dir_dot by apply orth_I. ring. }
    rewrite H, Q1. pose proof (sc1 (th - tau)) as SC. rewrite Q1 in SC.
    replace (D * sin a * s * (- s * sin a)) with (- (D * ((- s * sin a) * (- s * sin a)))) by (transitivity (- D * (sin a * sin a) * (s * s)); ring).
    replace ((- s * sin a) * (- s * sin a)) with (1 - cos (th - tau) * cos (th - tau)) by lra. ring. }
  assert (CA : 0 < cos a) by (apply cos_gt_0; lra).
  assert (C2 : cos (th - tau) * cos (th - tau) = cos a * cos a).
  { pose proof (sc1 (th - tau)) as SC. pose proof (sc1 a) as SA. rewrite Q1 in SC.
    replace (- s * sin a * (- s * sin a)) with ((s * s) * (sin a * sin a)) in SC by ring. rewrite SS in SC. lra. }
  assert (C1 : cos (th - tau) = cos a).
  { assert (B : (cos (th - tau) - cos a) * (cos (th - tau) + cos a) = 0) by lra.
    apply Rmult_integral in B. destruct B as [B|B]; [lra|exfalso].
    replace (cos (th - tau)) with (- cos a) in WD by lra. rewrite WW in WD.
    replace (rb1 - D * - cos a) with (rb1 + (rb1 + rb2)) in WD by (rewrite <- CD; ring). nra. }
  assert (CC : cos (tau - th) = cos (s * a)).
  { replace (tau - th) with (- (th - tau)) by ring. rewrite cos_neg, C1. destruct Hs as [-> | ->]; [f_equal; ring|]. rewrite <- cos_neg. f_equal. ring. }
  assert (CS : sin (tau - th) = sin (s * a)).
  { replace (tau - th) with (- (th - tau)) by ring. rewrite sin_neg, Q1.
    destruct Hs as [-> | ->]; [rewrite Rmult_1_l; ring|]. replace (-1 * a) with (- a) by ring. rewrite sin_neg. ring. }
  replace tau with (th + (tau - th)) by ring. rewrite !(dir_plus I3 th), !(dir'_plus I3 th), CC, CS. split; reflexivity.
Qed.

(** The spec: for every roll of the pair the facing flanks of every pair of neighbouring teeth cut
    the two lines at right angles, in points [gap] apart. *)
Definition loa_contact (T1 T2 : gtransform) (n1 n2 : Z) (r1 r2 A1 A2 gap : R) (p0 p1 q0 q1 : vec) : Prop :=
  exists (m : Z) (n n' : vec) (L : R), segment p0 p1 n L /\ segment q1 q0 n' L /\
    forall (x : R) (k : Z),
      (exists t1 t2 s, let P1 := lower_flank (turned T1 n1 x) n1 r1 A1 (m - k) t1 in
         P1 = vadd p0 (smul s n) /\ lower_flank (turned T2 n2 (- x)) n2 r2 A2 k t2 = vadd P1 (smul gap n) /\
         normal_to (lower_flank (turned T1 n1 x) n1 r1 A1 (m - k)) n t1 /\
         normal_to (lower_flank (turned T2 n2 (- x)) n2 r2 A2 k) n t2) /\
      (exists t1 t2 s, let P1 := upper_flank (turned T1 n1 x) n1 r1 A1 (m - k) t1 in
         P1 = vadd q0 (smul s n') /\ P1 = vadd (upper_flank (turned T2 n2 (- x)) n2 r2 A2 (k - 1) t2) (smul gap n') /\
         normal_to (upper_flank (turned T1 n1 x) n1 r1 A1 (m - k)) n' t1 /\
         normal_to (upper_flank (turned T2 n2 (- x)) n2 r2 A2 (k - 1)) n' t2).

Lemma loa_of_conjugate T1 T2 n1 n2 r1 r2 A1 A2 gap a D ra1 ra2 p0 p1 q0 q1 :
  let rb1 := g_scale T1 * r1 in let rb2 := g_scale T2 * r2 in
  (0 < n1)%Z -> 0 < rb1 -> 0 < rb2 -> 0 <= a < PI / 2 -> D = (rb1 + rb2) / cos a ->
  rotation (g_orient T1) -> g_z_axis T1 = OUT -> g_z_axis T2 = OUT ->
  dot (vsub (g_center T2) (g_center T1)) OUT = 0 -> norm (vsub (g_center T2) (g_center T1)) = D ->
  loa_lines (g_center T1) (g_center T2) rb1 rb2 false false ra1 ra2 = Ok ((p0, p1), (q0, q1)) ->
  conjugate_external T1 T2 n1 n2 r1 r2 A1 A2 gap gap ((rb1 + rb2) * tan a) ->
  loa_contact T1 T2 n1 n2 r1 r2 A1 A2 gap p0 p1 q0 q1.
Proof.
  intros rb1 rb2 N1 R1 R2 Ha ED RO Z1 Z2 ZD ND LO.
  assert (Pi := PI_RGT_0). assert (CA : 0 < cos a) by (apply cos_gt_0; lra).
  assert (DP : 0 < D) by (rewrite ED; apply Rdiv_lt_0_compat; lra).
  assert (CD : D * cos a = rb1 + rb2) by (rewrite ED; field; lra).
  assert (LD : (rb1 + rb2) * tan a = D * sin a) by (rewrite ED; unfold tan; field; lra).
  unfold conjugate_external. fold rb1 rb2. rewrite Z1, Z2, LD.
  intros (m & e & e' & n & B1 & B2 & n' & B1' & B2' & Nn & Nn' & TA & TB & TA' & TB' & E2 & E1' & H).
  destruct (upright_dirs _ RO Z1) as (f & F).
  assert (PP : 0 < 2 * PI / IZR n1) by (apply Rdiv_lt_0_compat; [lra|apply IZR_lt; exact N1]).
  set (pt := 2 * PI / IZR n1) in *.
  revert LO. unfold loa_lines, normalize_r.
  destruct (Req_EM_T (norm (vsub (g_center T2) (g_center T1))) 0) as [|D0]; [discriminate|]. cbn [bind].
  destruct (planar_diff _ _ D0 ZD) as (th & EC & EU). rewrite EU. rewrite ND in EC |- *.
  destruct (Rlt_dec 1 (Rabs (rb2 + rb1) / D)) as [|K]; [discriminate|].
  assert (AL : acos ((rb1 + rb2) / D) = a).
  { replace ((rb1 + rb2) / D) with (cos a) by (rewrite <- CD; field; lra). apply acos_cos. lra. }
  rewrite AL, !rotate_opp, !rotate_dir. intros Q. injection Q as <- <- <- <-.
  (* first line *)
  set (tau := g_angle T1 + IZR m * pt - A1 + e * pt + f).
  destruct (string_line (fun y => vadd B1 (smul y n)) (g_center T1) B1 (smul rb1 (dir I3 tau)) n (vopp (dir' I3 tau))) as (X1 & X2);
    [|reflexivity|].
  { intros y. destruct (H (e - y / (rb1 * pt)) 0%Z) as ((t1 & t2 & HT & HP & _) & _).
    replace (m - 0)%Z with m in HP by lia. rewrite lower_flank_eq in HP. cbn [turned g_center g_scale g_angle g_orient] in HP. fold rb1 pt in HP.
    assert (T1e : rb1 * t1 = y) by (rewrite HT; field; lra).
    rewrite T1e in HP. rewrite <- HP. destruct (F (g_angle T1 + (e - y / (rb1 * pt)) * pt + IZR m * pt - A1 + t1)) as (F1 & F2).
    rewrite F1, F2. replace (g_angle T1 + (e - y / (rb1 * pt)) * pt + IZR m * pt - A1 + t1 + f) with tau
      by (rewrite HT; unfold tau; field; lra).
    rewrite <- T1e. generalize (dir I3 tau) (dir' I3 tau) (g_center T1). clear. intros u v c. destruct u, v, c. apply vec_eq; vec_simpl; ring. }
  set (tau' := g_angle T1 + IZR m * pt + A1 - e' * pt + f).
  destruct (string_line (fun y => vadd B1' (smul y n')) (g_center T1) B1' (smul rb1 (dir I3 tau')) n' (vopp (dir' I3 tau'))) as (X1' & X2');
    [|reflexivity|].
  { intros y. destruct (H (- e' - y / (rb1 * pt)) 0%Z) as (_ & (t1 & t2 & HT & HP & _)).
    replace (m - 0)%Z with m in HP by lia. rewrite upper_flank_eq in HP. cbn [turned g_center g_scale g_angle g_orient] in HP. fold rb1 pt in HP.
    assert (T1e : rb1 * t1 = - y) by (rewrite HT; field; lra).
    rewrite T1e in HP. replace (vadd B1' (smul y n')) with (vsub B1' (smul (- y) n')) by vec_ring.
    rewrite <- HP. destruct (F (g_angle T1 + (- e' - y / (rb1 * pt)) * pt + IZR m * pt + A1 - t1)) as (F1 & F2).
    rewrite F1, F2. replace (g_angle T1 + (- e' - y / (rb1 * pt)) * pt + IZR m * pt + A1 - t1 + f) with tau'
      by (rewrite HT; unfold tau'; field; lra).
    replace y with (- (rb1 * t1)) by lra. generalize (dir I3 tau') (dir' I3 tau') (g_center T1). clear. intros u v c. destruct u, v, c. apply vec_eq; vec_simpl; ring. }
  destruct (tangent_angle (g_center T1) (g_center T2) rb1 rb2 D a th tau 1 B2 n) as (G1 & G2); try assumption; try (split; lra); [left; reflexivity| | |].
  { rewrite X2. vec_ring. }
  { rewrite E2, X1. reflexivity. }
  destruct (tangent_angle (g_center T1) (g_center T2) rb1 rb2 D a th tau' (-1) B2' (vopp n')) as (G1' & G2'); try assumption; try (split; lra); [right; reflexivity| | | |].
  { rewrite X2'. vec_ring. }
  { rewrite <- X1', E1'. generalize (D * sin a). clear. intros l. vec_ring. }
  { destruct TB' as (Y1 & Y2 & Y3 & Y4). replace (vopp n') with (smul (-1) n') by vec_ring. split; [exact Y1|]. rewrite dot_smul_r, dot_smul_l, Y2, Y4. repeat split; lra. }
  rewrite Rmult_1_l in G1, G2. replace (th + -1 * a) with (th + - a) in G1', G2' by ring.
  rewrite G1 in X1. rewrite G1' in X1'. rewrite G2 in X2. rewrite G2' in X2'.
  assert (SA : 0 <= D * sin a) by (apply Rmult_le_pos; [lra|apply sin_ge_0; lra]).
  assert (V2 : B2 = vadd (g_center T2) (smul rb2 (vopp (dir I3 (th + a))))).
  { rewrite E2, X1, X2, EC. rewrite (dir_back I3 th a) at 1.
    replace (smul D (vsub (smul (cos a) (dir I3 (th + a))) (smul (sin a) (dir' I3 (th + a)))))
      with (vsub (smul (D * cos a) (dir I3 (th + a))) (smul (D * sin a) (dir' I3 (th + a)))) by (clear; vec_ring).
    rewrite CD. generalize (dir I3 (th + a)) (dir' I3 (th + a)) (D * sin a) (g_center T1). clear. intros u v l c. destruct u, v, c. apply vec_eq; vec_simpl; ring. }
  assert (V2' : B2' = vadd (g_center T2) (smul rb2 (vopp (dir I3 (th + - a))))).
  { assert (E2' : B2' = vsub B1' (smul (D * sin a) n')) by (rewrite E1'; generalize (D * sin a); clear; intros; vec_ring).
    rewrite E2', X1', X2', EC. rewrite (dir_back I3 th (- a)) at 1. rewrite cos_neg, sin_neg.
    replace (smul D (vsub (smul (cos a) (dir I3 (th + - a))) (smul (- sin a) (dir' I3 (th + - a)))))
      with (vadd (smul (D * cos a) (dir I3 (th + - a))) (smul (D * sin a) (dir' I3 (th + - a)))) by (clear; vec_ring).
    rewrite CD. generalize (dir I3 (th + - a)) (dir' I3 (th + - a)) (D * sin a) (g_center T1). clear. intros u v l c. destruct u, v, c. apply vec_eq; vec_simpl; ring. }
  rewrite <- X1, <- X1', <- V2, <- V2'.
  exists m, n, n', (D * sin a). split; [split; [exact Nn|split; [exact SA|exact E2]]|].
  split; [split; [exact Nn'|split; [exact SA|exact E1']]|].
  intros x k. destruct (H x k) as ((t1 & t2 & _ & P1 & P2 & P3 & P4 & P5) & (t1' & t2' & _ & P1' & P2' & P3' & P4' & P5')).
  split.
  - exists t1, t2, (rb1 * t1). cbn zeta. auto.
  - exists t1', t2', (- (rb1 * t1')). cbn zeta. split; [|auto]. rewrite P1'. generalize (rb1 * t1'). clear. intros; vec_ring.
Qed.

Lemma base_circle_any_height g n z : cylindrical g n -> ig_base_circle_radius g z = ig_r_base g.
Proof.
  intros H. assert (HO := cy_orient _ _ H). unfold ig_r_base, ig_base_circle_radius. generalize (k_p2z (ig_core g) 0). intros w.
  rewrite !C07_gear_transform_scales_distances.
  2,3: cbn [g_mul g_orient k_slice]; rewrite mmul_I_r; exact HO.
  f_equal. f_equal. rewrite (cy_core _ _ H). cbn [g_mul g_scale k_slice with_trf k_gamma k_trf calc_params].
  rewrite (cy_cone _ _ H). replace (0 / 2) with 0 by field. rewrite sin_0. unfold Rdiv. ring.
Qed.

(** The drawn lines of action are the lines on which the teeth of a meshed pair of upright spur gears
    touch (or face each other, [gap] apart), at the drawn height. *)
Theorem C50_contact g o sg so a target bl g' n1 n2 ratio ra1 ra2 :
  cylindrical g n1 -> cylindrical o n2 -> ip_helix (ig_in g) = 0 -> ip_helix (ig_in o) = 0 ->
  ip_inside (ig_in g) = false -> ip_inside (ig_in o) = false ->
  ip_module (ig_in g) * cos (ip_alpha (ig_in g)) = ip_module (ig_in o) * cos (ip_alpha (ig_in o)) ->
  / 10 ^ 12 <= ig_r_base g + ig_r_base o ->
  rotation (g_orient (k_trf (ig_core o))) -> g_z_axis (k_trf (ig_core o)) = OUT -> dot target OUT = 0 ->
  0 <= a < PI / 2 -> ig_mesh_equation g o sg so bl a = 0 ->
  ig_mesh_to g o sg so a target bl 0 = Ok g' ->
  let z1 := k_p2z (ig_core g') ratio in let z2 := k_p2z (ig_core o) ratio in
  ip_module (ig_in g) * z1 = ip_module (ig_in o) * z2 ->
  let gap := bl / 2 - (ig_r_base g * (relief g 0 - relief g z1) + ig_r_base o * (relief o 0 - relief o z2)) in
  exists p0 p1 q0 q1, ig_loa g' o ratio ra1 ra2 = Ok ((p0, p1), (q0, q1)) /\
    loa_contact (section_trf g' z1) (section_trf o z2) n1 n2 (unit_base g) (unit_base o)
      (- section_angle_base g z1 sg) (- section_angle_base o z2 so) gap p0 p1 q0 q1.
Proof.
  intros H1 H2 B1 B2 I1 I2 PB RR RO ZO TZ Ha EQ MT z1 z2 ZZ gap. assert (Pi := PI_RGT_0).
  assert (TZ' : dot target (g_z_axis (k_trf (ig_core o))) = 0) by (rewrite ZO; exact TZ).
  assert (Ha' : - PI / 2 < a < PI / 2) by lra.
  pose proof (C78_section_gap g o sg so a target bl g' n1 n2 z1 z2 H1 H2 B1 B2 I1 I2 PB RR TZ' Ha' EQ MT ZZ) as CO.
  cbn zeta in CO. fold gap in CO.
  destruct (mesh_to_planar _ _ _ _ _ _ _ _ _ _ _ H1 H2 MT) as (Hn & IN & H1' & OR & CE & AN).
  cbn zeta in *. rewrite I1, I2 in CE. cbn [orb] in CE. unfold mesh_dist in CE.
  destruct (spur_section g' n1 z1 H1') as (SC1 & SO1 & SS1 & _); [rewrite IN; exact B1|].
  destruct (spur_section o n2 z2 H2 B2) as (SC2 & SO2 & SS2 & _). rewrite IN in SC1.
  pose proof (r_base_eq _ _ H1) as R1. pose proof (r_base_eq _ _ H2) as R2. pose proof (r_base_eq _ _ H1') as R1'.
  assert (UB : unit_base g' = unit_base g) by (unfold unit_base; rewrite IN; reflexivity).
  rewrite IN, UB, <- R1 in R1'.
  assert (S1 : g_scale (section_trf g' z1) * unit_base g = ig_r_base g) by (rewrite SS1, (cy_scale _ _ H1'), IN, R1; reflexivity).
  assert (S2 : g_scale (section_trf o z2) * unit_base o = ig_r_base o) by (rewrite SS2, (cy_scale _ _ H2), R2; reflexivity).
  assert (Q1 : 0 < ig_r_base g) by (rewrite R1; apply Rmult_lt_0_compat; [apply (cy_module _ _ H1)|apply (unit_base_pos _ _ H1)]).
  assert (Q2 : 0 < ig_r_base o) by (rewrite R2; apply Rmult_lt_0_compat; [apply (cy_module _ _ H2)|apply (unit_base_pos _ _ H2)]).
  assert (CA : 0 < cos a) by (apply cos_gt_0; lra).
  set (D := (ig_r_base g + ig_r_base o) / cos a) in *.
  assert (DP : 0 < D) by (apply Rdiv_lt_0_compat; lra).
  assert (ZG : g_z_axis (k_trf (ig_core g')) = OUT) by (unfold g_z_axis; rewrite OR; exact ZO).
  assert (DI : vsub (g_center (section_trf o z2)) (g_center (section_trf g' z1)) = smul (- D) (normalize target)).
  { rewrite SC1, SC2, CE, ZZ, ZG, ZO. generalize (normalize target) (g_center (k_trf (ig_core o))) (smul (ip_module (ig_in o) * z2) OUT).
    clear. intros u c v. destruct u, c, v. apply vec_eq; vec_simpl; ring. }
  assert (NT : norm (normalize target) = 1).
  { unfold normalize. rewrite norm_smul, Rabs_right; [field; exact Hn|]. apply Rle_ge, Rlt_le, Rinv_0_lt_compat. pose proof (norm_nonneg target). lra. }
  assert (ND : norm (vsub (g_center (section_trf o z2)) (g_center (section_trf g' z1))) = D).
  { rewrite DI, norm_smul, Rabs_Ropp, NT, Rabs_right by lra. ring. }
  assert (ZD : dot (vsub (g_center (section_trf o z2)) (g_center (section_trf g' z1))) OUT = 0).
  { rewrite DI. unfold normalize. rewrite !dot_smul_l, TZ. ring. }
  assert (LQ : ig_loa g' o ratio ra1 ra2 = loa_lines (g_center (section_trf g' z1)) (g_center (section_trf o z2)) (ig_r_base g) (ig_r_base o) false false ra1 ra2).
  { unfold ig_loa. fold z1 z2. rewrite (base_circle_any_height _ _ z1 H1'), (base_circle_any_height _ _ z2 H2), R1', (k_tooth_eq _ _ H1'), (k_tooth_eq _ _ H2), IN, I1, I2. reflexivity. }
  destruct (proj2 (C50_external_error (g_center (section_trf g' z1)) (g_center (section_trf o z2)) (ig_r_base g) (ig_r_base o) ra1 ra2 ltac:(lra) ltac:(lra))) as (((p0, p1), (q0, q1)) & LK).
  { split.
    - intros B. rewrite B, vsub_diag in ND. unfold norm in ND. replace (dot ORIGIN ORIGIN) with 0 in ND by (vec_simpl; ring). rewrite sqrt_0 in ND. lra.
    - rewrite ND. unfold D. apply (Rmult_le_reg_r (cos a)); [exact CA|]. unfold Rdiv. rewrite Rmult_assoc, Rinv_l by lra.
      pose proof (COS_bound a). nra. }
  exists p0, p1, q0, q1. split; [rewrite LQ; exact LK|].
  apply (loa_of_conjugate _ _ _ _ _ _ _ _ _ a D ra1 ra2); rewrite ?S1, ?S2; try assumption; try reflexivity.
  - apply (cy_n _ _ H1).
  - rewrite SO1, OR. exact RO.
  - unfold g_z_axis. rewrite SO1. exact ZG.
  - unfold g_z_axis. rewrite SO2. exact ZO.
Qed.

(** Two standard gears of module 2 meshed along x: their lines of action at half height. *)
Example C50_example : exists sg so g' p0 p1 q0 q1,
  ig_mesh_to ex_g ex_o sg so (PI / 9) RIGHT 0 0 = Ok g' /\
  ig_loa g' ex_o (1 / 2) 22 42 = Ok ((p0, p1), (q0, q1)) /\
  loa_contact (section_trf g' (5 / 4)) (section_trf ex_o (5 / 4)) 20 40 (unit_base ex_g) (unit_base ex_o)
    (- section_angle_base ex_g (5 / 4) sg) (- section_angle_base ex_o (5 / 4) so) 0 p0 p1 q0 q1.
Proof.
  pose proof (ex_cyl 20 false ltac:(lia)) as H1. pose proof (ex_cyl 40 false ltac:(lia)) as H2.
  destruct (ex_solved 20 false ltac:(lia)) as (sg & S1). destruct (ex_solved 40 false ltac:(lia)) as (so & S2).
  fold ex_g in H1, S1. fold ex_o in H2, S2. assert (Pi := PI_RGT_0).
  assert (I1 : ig_in ex_g = ex_param 20 false) by (apply (ex_in 20); lia).
  assert (I2 : ig_in ex_o = ex_param 40 false) by (apply (ex_in 40); lia).
  assert (K1 : inside_teeth (k_tooth (ig_core ex_g)) = false) by (rewrite (k_tooth_eq _ _ H1), I1; reflexivity).
  assert (K2 : inside_teeth (k_tooth (ig_core ex_o)) = false) by (rewrite (k_tooth_eq _ _ H2), I2; reflexivity).
  destruct (C42_root_exists_unique ex_g ex_o sg so 0 K1 K2) as [(a & Ha & E) _].
  destruct (ex_mesh_ok ex_g ex_o sg so a 0 0 20 40 H1 H2) as (g' & MT).
  destruct (C42_standard_external ex_g ex_o 20 40 sg so a RIGHT 0 g') as [EA _]; try assumption;
    try (rewrite ?I1, ?I2; cbn; (reflexivity || lra || apply inv_20deg)).
  rewrite I1 in EA. cbn in EA. rewrite EA in *.
  exists sg, so, g'.
  assert (KZ : forall g n, cylindrical g n -> ig_in g = ex_param (IZR n) false -> k_p2z (ig_core g) (1 / 2) = 5 / 4).
  { intros g n Hc Hi. unfold k_p2z. rewrite (cy_core _ _ Hc), Hi. cbn. field. }
  destruct (mesh_to_planar _ _ _ _ _ _ _ _ _ _ _ H1 H2 MT) as (_ & IN & H1' & _). cbn zeta in *.
  assert (Z1 : k_p2z (ig_core g') (1 / 2) = 5 / 4) by (apply (KZ g' 20%Z H1'); rewrite IN; exact I1).
  assert (Z2 : k_p2z (ig_core ex_o) (1 / 2) = 5 / 4) by (apply (KZ ex_o 40%Z H2); exact I2).
  destruct (C50_contact ex_g ex_o sg so (PI / 9) RIGHT 0 g' 20 40 (1 / 2) 22 42) as (p0 & p1 & q0 & q1 & LO & LC);
    try assumption; try (rewrite ?I1, ?I2; reflexivity).
  - unfold ex_g, ex_o. rewrite (ex_r_base 20), (ex_r_base 40) by lia. pose proof cos_20deg.
    apply Rle_trans with 1; [|lra]. rewrite <- Rinv_1. apply Rinv_le_contravar; lra.
  - replace (g_orient (k_trf (ig_core ex_o))) with UNIT3X3; [apply rotation_I|]. reflexivity.
  - vec_simpl. ring.
  - lra.
  - rewrite Z1, Z2, I1, I2. reflexivity.
  - exists p0, p1, q0, q1. split; [exact MT|]. split; [exact LO|]. rewrite Z1, Z2 in LC.
    replace 0 with (0 / 2 - (ig_r_base ex_g * (relief ex_g 0 - relief ex_g (5 / 4)) + ig_r_base ex_o * (relief ex_o 0 - relief ex_o (5 / 4)))); [exact LC|].
    assert (RE : forall g z, ip_crown (ig_in g) = 0 -> relief g z = relief g 0).
    { intros g z C0. unfold relief, ig_pia, crowning, Rdiv. rewrite C0. ring. }
    rewrite (RE ex_g (5 / 4)), (RE ex_o (5 / 4)) by (rewrite ?I1, ?I2; reflexivity). field.
Qed.
