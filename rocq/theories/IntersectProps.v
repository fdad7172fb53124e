(** C130: what a solution of the intersection searches is. *)
From Coq Require Import Reals Lra.
From Verif Require Import Num Vec.
From Verif Require Import Intersect.
Open Scope R_scope.

(** Distance of two points. *)
Definition apart (p q : vec) : R := norm (vsub p q).
(** The points of the line through [o] along [d]. *)
Definition line_pt (o d : vec) (u : R) : vec := vadd o (smul u d).
(** The plane through [o] with normal [n]. *)
Definition plane_has (o n p : vec) : Prop := dot (vsub p o) n = 0.
(** [r] is the least distance from [p] to the points of [S]. *)
Definition least_distance (S : vec -> Prop) (p : vec) (r : R) : Prop :=
  (forall q, S q -> r <= apart p q) /\ exists q, S q /\ apart p q = r.

Lemma vsub_zero p q : vsub p q = ORIGIN <-> p = q.
Proof.
  split; [|intros <-; destruct p; vec_simpl; unfold ORIGIN; f_equal; ring].
  destruct p, q. vec_simpl. unfold ORIGIN. intros H. injection H. intros. f_equal; lra.
Qed.

Lemma apart_nonneg p q : 0 <= apart p q.
Proof. apply norm_nonneg. Qed.

Lemma apart_zero p q : apart p q = 0 <-> p = q.
Proof.
  split.
  - intros H. apply vsub_zero, norm_zero, H.
  - intros <-. unfold apart, norm. replace (dot (vsub p p) (vsub p p)) with 0; [apply sqrt_0|]. destruct p; vec_simpl; ring.
Qed.

Lemma sq_le a b : 0 <= b -> a * a <= b * b -> a <= b.
Proof. intros. nra. Qed.

Lemma minfunc_dist c1 c2 t0 t1 : meet_minfunc c1 c2 t0 t1 = (apart (c1 t0) (c2 t1) / DELTA) ^ 2.
Proof.
  unfold meet_minfunc. cbv zeta. rewrite dot_smul_l, dot_smul_r, <- norm_sqr. unfold apart, Rdiv. ring.
Qed.

(** EQUALITY: the zeros are exactly the pairs of parameters with one common point; the third unknown is free. *)
Theorem C130_meet : forall c1 c2 t0 t1 x,
  meet_target c1 c2 (V t0 t1 x) = ORIGIN <-> c1 t0 = c2 t1.
Proof. intros. unfold meet_target. cbn [vx vy]. apply vsub_zero. Qed.

(** MINDISTANCE: one pair of parameters is better than another exactly if its two points are closer together, and the
    value is zero exactly at common points. *)
Theorem C130_meet_min : forall c1 c2 t0 t1 s0 s1,
  (meet_minfunc c1 c2 t0 t1 <= meet_minfunc c1 c2 s0 s1 <-> apart (c1 t0) (c2 t1) <= apart (c1 s0) (c2 s1)) /\
  (meet_minfunc c1 c2 t0 t1 = 0 <-> c1 t0 = c2 t1).
Proof.
  intros. rewrite !minfunc_dist.
  pose proof (apart_nonneg (c1 t0) (c2 t1)) as A. pose proof (apart_nonneg (c1 s0) (c2 s1)) as B.
  rewrite <- (apart_zero (c1 t0)).
  set (a := apart (c1 t0) (c2 t1)) in *. set (b := apart (c1 s0) (c2 s1)) in *.
  unfold DELTA, Rdiv. rewrite Rinv_inv. clearbody a b. split; split; intros H; try nra.
Qed.

(** On a line: the value is the length of the direction times the distance from the line. *)
Theorem C130_line : forall c o d t, d <> ORIGIN ->
  least_distance (fun q => exists u, q = line_pt o d u) (c t) (line_target c o d t / norm d) /\
  (line_target c o d t = 0 <-> exists u, c t = line_pt o d u).
Proof.
  intros c o d t D. pose proof (norm_pos d D) as P.
  assert (L : least_distance (fun q => exists u, q = line_pt o d u) (c t) (line_target c o d t / norm d)).
  { unfold line_target. set (w := vsub (c t) o).
    assert (E : forall u, vsub (c t) (line_pt o d u) = vsub w (smul u d))
      by (intros; subst w; unfold line_pt; destruct (c t), o, d; vec_simpl; f_equal; ring).
    assert (X : forall u, cross (vsub w (smul u d)) d = cross w d)
      by (intros; destruct w, d; vec_simpl; f_equal; ring).
    pose proof (norm_sqr d) as ND.
    split.
    - intros q [u ->]. unfold apart. rewrite E.
      apply Rmult_le_reg_r with (norm d); [exact P|]. unfold Rdiv. rewrite Rmult_assoc, Rinv_l, Rmult_1_r by lra.
      apply sq_le; [apply Rmult_le_pos; [apply norm_nonneg|lra]|].
      rewrite norm_sqr, <- (X u), lagrange.
      pose proof (norm_sqr (vsub w (smul u d))). set (m := norm (vsub w (smul u d))) in *.
      replace (m * norm d * (m * norm d)) with (m * m * (norm d * norm d)) by ring. rewrite H, ND.
      pose proof (Rle_0_sqr (dot (vsub w (smul u d)) d)). unfold Rsqr in *. lra.
    - set (u := dot w d / dot d d). exists (line_pt o d u). split; [exists u; reflexivity|].
      assert (DD : dot d d <> 0) by (rewrite <- ND; nra).
      unfold apart. rewrite E.
      assert (Z : dot (vsub w (smul u d)) d = 0)
        by (rewrite dot_vsub_l, dot_smul_l; unfold u; field; exact DD).
      pose proof (lagrange (vsub w (smul u d)) d) as G. rewrite X, Z in G.
      rewrite <- !norm_sqr in G.
      assert (Q : norm (cross w d) = norm (vsub w (smul u d)) * norm d).
      { apply Rsqr_inj; [apply norm_nonneg|apply Rmult_le_pos; [apply norm_nonneg|lra]|]. unfold Rsqr. rewrite G. ring. }
      rewrite Q. field. lra. }
  split; [exact L|]. destruct L as [L1 (q & [u ->] & L2)]. split.
  - intros H. exists u. apply apart_zero. rewrite L2, H. field. lra.
  - intros [v Hv]. pose proof (L1 _ (ex_intro _ v eq_refl)) as G. 
    assert (Z : apart (c t) (line_pt o d v) = 0) by (apply apart_zero, Hv). rewrite Z in G.
    pose proof (norm_nonneg (cross (vsub (c t) o) d)) as N. fold (line_target c o d t) in N.
    assert (line_target c o d t <= 0); [|lra].
    apply Rmult_le_reg_r with (/ norm d); [apply Rinv_0_lt_compat, P|]. unfold Rdiv in G. lra.
Qed.

(** With the zero direction every parameter is a solution, wherever the curve is. *)
Theorem C130_line_refuted : forall c o t, line_target c o ORIGIN t = 0.
Proof.
  intros. unfold line_target, norm. rewrite <- sqrt_0. f_equal. destruct (c t), o. vec_simpl. ring.
Qed.

(** The value for a line is never negative, so it has no change of sign where the curve crosses the line. *)
Theorem C130_line_sign : forall c o d t, 0 <= line_target c o d t.
Proof. intros. apply norm_nonneg. Qed.

(** On a plane: the size of the value is the length of the normal times the distance from the plane. *)
Theorem C130_plane : forall c n o t, n <> ORIGIN ->
  least_distance (plane_has o n) (c t) (Rabs (plane_target c n o t) / norm n) /\
  (plane_target c n o t = 0 <-> plane_has o n (c t)).
Proof.
  intros c n o t D. pose proof (norm_pos n D) as P. pose proof (norm_sqr n) as ND.
  split; [|reflexivity]. unfold plane_target. set (k := dot (vsub (c t) o) n). split.
  - intros q Hq. unfold plane_has in Hq.
    assert (K : k = dot (vsub (c t) q) n).
    { subst k. assert (dot (vsub (c t) o) n = dot (vsub (c t) q) n + dot (vsub q o) n)
        by (destruct (c t), q, o, n; vec_simpl; ring). lra. }
    apply Rmult_le_reg_r with (norm n); [exact P|]. unfold Rdiv. rewrite Rmult_assoc, Rinv_l, Rmult_1_r by lra.
    unfold apart. apply sq_le; [apply Rmult_le_pos; [apply norm_nonneg|lra]|].
    replace (Rabs k * Rabs k) with (k * k) by (rewrite <- Rabs_mult; symmetry; apply Rabs_right; nra).
    pose proof (lagrange (vsub (c t) q) n) as G. pose proof (dot_nonneg (cross (vsub (c t) q) n)) as N.
    pose proof (norm_sqr (vsub (c t) q)) as M. set (m := norm (vsub (c t) q)) in *.
    replace (m * norm n * (m * norm n)) with (m * m * (norm n * norm n)) by ring. rewrite M, ND, K. lra.
  - assert (DD : dot n n <> 0) by (rewrite <- ND; nra).
    exists (vsub (c t) (smul (k / dot n n) n)). split.
    + unfold plane_has.
      replace (dot (vsub (vsub (c t) (smul (k / dot n n) n)) o) n) with (dot (vsub (c t) o) n - k / dot n n * dot n n)
        by (set (z := k / dot n n); clearbody z; destruct (c t), o, n; vec_simpl; ring).
      fold k. field. exact DD.
    + unfold apart.
      replace (vsub (c t) (vsub (c t) (smul (k / dot n n) n))) with (smul (k / dot n n) n)
        by (set (z := k / dot n n); clearbody z; destruct (c t), n; vec_simpl; f_equal; ring).
      rewrite norm_smul, <- ND. unfold Rdiv. rewrite Rabs_mult.
      rewrite (Rabs_right (/ (norm n * norm n))); [field; lra|].
      left. apply Rinv_0_lt_compat. nra.
Qed.

(** [minimize] on the square ranks parameters by their distance from the plane. *)
Theorem C130_plane_min : forall c n o t s r1 r2, n <> ORIGIN ->
  least_distance (plane_has o n) (c t) r1 -> least_distance (plane_has o n) (c s) r2 ->
  (plane_minfunc c n o t <= plane_minfunc c n o s <-> r1 <= r2).
Proof.
  intros c n o t s r1 r2 D L1 L2. pose proof (norm_pos n D) as P.
  assert (U : forall S p a b, least_distance S p a -> least_distance S p b -> a = b).
  { intros S p a b [A1 (q & Sq & A2)] [B1 (q' & Sq' & B2)]. pose proof (A1 _ Sq'). pose proof (B1 _ Sq). lra. }
  rewrite (U _ _ _ _ L1 (proj1 (C130_plane c n o t D))), (U _ _ _ _ L2 (proj1 (C130_plane c n o s D))).
  unfold plane_minfunc. rewrite <- (pow2_abs (plane_target c n o t)), <- (pow2_abs (plane_target c n o s)).
  pose proof (Rabs_pos (plane_target c n o t)) as A. pose proof (Rabs_pos (plane_target c n o s)) as B.
  set (a := Rabs (plane_target c n o t)) in *. set (b := Rabs (plane_target c n o s)) in *. clearbody a b.
  assert (I : 0 < / norm n) by (apply Rinv_0_lt_compat, P).
  assert (E : a / norm n <= b / norm n <-> a <= b).
  { unfold Rdiv. split; intros H; [apply Rmult_le_reg_r with (/ norm n); assumption|apply Rmult_le_compat_r; lra]. }
  rewrite E. split; intros; nra.
Qed.

(** A slanted straight curve (t, 2t-1, 0) and the x axis as second curve, line and plane. *)
Definition slant (t : R) : vec := V t (2 * t - 1) 0.
Definition axis_x (t : R) : vec := V t 0 0.

Example C130_meet_example : meet_target slant axis_x (V (1 / 2) (1 / 2) 7) = ORIGIN /\
  meet_target slant axis_x (V 1 1 0) <> ORIGIN.
Proof.
  split.
  - apply C130_meet. unfold slant, axis_x. f_equal; lra.
  - intros H. apply C130_meet in H. unfold slant, axis_x in H. injection H. lra.
Qed.

Example C130_meet_min_example : meet_minfunc slant axis_x (1 / 2) (1 / 2) = 0.
Proof. apply (proj2 (C130_meet_min slant axis_x (1/2) (1/2) 0 0)). unfold slant, axis_x. f_equal; lra. Qed.

Lemma right_nz : RIGHT <> ORIGIN.
Proof. unfold RIGHT, ORIGIN. intros H. injection H. lra. Qed.
Lemma up_nz : UP <> ORIGIN.
Proof. unfold UP, ORIGIN. intros H. injection H. lra. Qed.

Example C130_line_example : line_target slant ORIGIN RIGHT (1 / 2) = 0 /\ line_target slant ORIGIN RIGHT 1 <> 0.
Proof.
  split.
  - apply (C130_line slant ORIGIN RIGHT (1 / 2) right_nz). exists (1 / 2). unfold slant, line_pt. vec_simpl. f_equal; lra.
  - intros H. apply (C130_line slant ORIGIN RIGHT 1 right_nz) in H. destruct H as [u Hu].
    unfold slant, line_pt in Hu. vec_simpl. injection Hu. lra.
Qed.

Example C130_line_refuted_example : line_target slant ORIGIN ORIGIN 5 = 0 /\ slant 5 <> ORIGIN.
Proof. split; [apply C130_line_refuted|]. unfold slant, ORIGIN. intros H. injection H. lra. Qed.

Example C130_line_sign_example : 0 < line_target slant ORIGIN RIGHT 0 /\ 0 < line_target slant ORIGIN RIGHT 1.
Proof.
  split; (apply Rnot_ge_lt; intros G; pose proof (C130_line_sign slant ORIGIN RIGHT 0);
    pose proof (C130_line_sign slant ORIGIN RIGHT 1)).
  - assert (Z : line_target slant ORIGIN RIGHT 0 = 0) by lra.
    apply (C130_line slant ORIGIN RIGHT 0 right_nz) in Z. destruct Z as [u Hu].
    unfold slant, line_pt in Hu. vec_simpl. injection Hu. lra.
  - assert (Z : line_target slant ORIGIN RIGHT 1 = 0) by lra.
    apply (C130_line slant ORIGIN RIGHT 1 right_nz) in Z. destruct Z as [u Hu].
    unfold slant, line_pt in Hu. vec_simpl. injection Hu. lra.
Qed.

Example C130_plane_example : plane_has ORIGIN UP (slant (1 / 2)) /\ plane_target slant UP ORIGIN 1 <> 0.
Proof.
  split.
  - apply (proj2 (C130_plane slant UP ORIGIN (1 / 2) up_nz)). unfold plane_has, plane_target, slant. vec_simpl. lra.
  - unfold plane_target, slant. vec_simpl. lra.
Qed.

Example C130_plane_min_example : exists r1 r2,
  least_distance (plane_has ORIGIN UP) (slant (1 / 2)) r1 /\ least_distance (plane_has ORIGIN UP) (slant 1) r2 /\ r1 <= r2.
Proof.
  pose proof (proj1 (C130_plane slant UP ORIGIN (1 / 2) up_nz)) as L1.
  pose proof (proj1 (C130_plane slant UP ORIGIN 1 up_nz)) as L2.
  do 2 eexists. split; [exact L1|]. split; [exact L2|].
  apply (C130_plane_min slant UP ORIGIN (1 / 2) 1 _ _ up_nz L1 L2).
  unfold plane_minfunc, plane_target, slant. vec_simpl. nra.
Qed.
