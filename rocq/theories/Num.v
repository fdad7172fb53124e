(** Scalar operations of Python / NumPy used by gggears, over the reals.
    Rounding, NaN and signed zeros are not modelled (see DESIGN.md). *)
From Coq Require Import Reals Lra Lia ZArith Psatz.
Open Scope R_scope.

(** Exceptions as values.  The constructors name the Python exception raised. Python's exception classes, raised at the lines named in the definitions that return [Err]. *)
Inductive exn : Type :=
| ValueError | TypeError | NameError | IndexError | AttributeError | KeyError
| NotImplementedError | ZeroDivisionError.

(** Result of a Python call: a value or an exception (no single line). *)
Inductive res (A : Type) : Type :=
| Ok (a : A)
| Err (e : exn).
Arguments Ok {A} a.
Arguments Err {A} e.

(** Sequencing of Python statements: an exception ends the call (no single line). *)
Definition bind {A B} (r : res A) (f : A -> res B) : res B :=
  match r with Ok a => f a | Err e => Err e end.

(** src/gggears/defs.py line 21: [DELTA = 1e-6]. *)
Definition DELTA : R := / 1000000.

(** [np.floor], Python [//1]. *)
Definition floorZ (x : R) : Z := (up x - 1)%Z.
(** [np.ceil]. Used in curve.py 874. *)
Definition ceilZ (x : R) : Z := (- floorZ (- x))%Z.
(** Python [x % 1]. *)
Definition frac (x : R) : R := x - IZR (floorZ x).
(** Python [x % m] for floats. Used in gearmath.py 279, 283 and gggears_core.py 782. *)
Definition fmod (x m : R) : R := x - m * IZR (floorZ (x / m)).
(** [np.round] (half to even). Used in gggears_build123d.py 530. *)
Definition roundZ (x : R) : Z :=
  let f := floorZ x in
  let d := x - IZR f in
  if Rlt_dec d (1/2) then f
  else if Rlt_dec (1/2) d then (f + 1)%Z
  else if Z.even f then f else (f + 1)%Z.

(** [np.sign]. Used in gearteeth.py 99-121, function_generators.py 165, 235. *)
Definition sign (x : R) : R :=
  if Rlt_dec x 0 then -1 else if Rlt_dec 0 x then 1 else 0.

(** [np.arctan2(y, x)] (without signed zeros). *)
Definition arctan2 (y x : R) : R :=
  if Rlt_dec 0 x then atan (y / x)
  else if Rlt_dec x 0 then
         (if Rle_dec 0 y then atan (y / x) + PI else atan (y / x) - PI)
       else if Rlt_dec 0 y then PI / 2
            else if Rlt_dec y 0 then - PI / 2 else 0.

(** ** Facts *)

Lemma floorZ_bound x : IZR (floorZ x) <= x < IZR (floorZ x) + 1.
Proof.
  unfold floorZ. rewrite minus_IZR. destruct (archimed x) as [H1 H2]. lra.
Qed.

Lemma floorZ_unique x (n : Z) : IZR n <= x < IZR n + 1 -> floorZ x = n.
Proof.
  intros [H1 H2]. destruct (floorZ_bound x) as [H3 H4].
  assert (A : (floorZ x < n + 1)%Z) by (apply lt_IZR; rewrite plus_IZR; lra).
  assert (B : (n < floorZ x + 1)%Z) by (apply lt_IZR; rewrite plus_IZR; lra).
  lia.
Qed.

Lemma floorZ_IZR n : floorZ (IZR n) = n.
Proof. apply floorZ_unique; lra. Qed.

Lemma floorZ_add x n : floorZ (x + IZR n) = (floorZ x + n)%Z.
Proof.
  apply floorZ_unique. rewrite plus_IZR. pose proof (floorZ_bound x). lra.
Qed.

Lemma floorZ_mono x y : x <= y -> (floorZ x <= floorZ y)%Z.
Proof.
  intros H. destruct (floorZ_bound x), (floorZ_bound y).
  assert (floorZ x < floorZ y + 1)%Z; [apply lt_IZR; rewrite plus_IZR; lra | lia].
Qed.

Lemma frac_bound x : 0 <= frac x < 1.
Proof. unfold frac. pose proof (floorZ_bound x). lra. Qed.

Lemma frac_add_IZR x n : frac (x + IZR n) = frac x.
Proof. unfold frac. rewrite floorZ_add, plus_IZR. ring. Qed.

Lemma frac_id x : 0 <= x < 1 -> frac x = x.
Proof.
  intros H. unfold frac. rewrite (floorZ_unique x 0); lra.
Qed.

Lemma frac_eq x : exists k : Z, frac x = x + IZR k.
Proof. exists (- floorZ x)%Z. unfold frac. rewrite opp_IZR. ring. Qed.

Lemma ceilZ_bound x : x <= IZR (ceilZ x) < x + 1.
Proof. unfold ceilZ. rewrite opp_IZR. pose proof (floorZ_bound (- x)). lra. Qed.

Lemma ceilZ_unique x (n : Z) : x <= IZR n < x + 1 -> ceilZ x = n.
Proof.
  intros H. unfold ceilZ. rewrite (floorZ_unique (- x) (- n)); [lia|].
  rewrite opp_IZR. lra.
Qed.

(** Rounding recovers an integer from any value closer than 1/2 to it. *)
Lemma roundZ_near x (n : Z) : Rabs (x - IZR n) < 1 / 2 -> roundZ x = n.
Proof.
  intros H. apply Rabs_def2 in H. unfold roundZ.
  destruct (Rle_dec (IZR n) x).
  - rewrite (floorZ_unique x n) by lra. destruct (Rlt_dec _ _); [reflexivity|lra].
  - rewrite (floorZ_unique x (n - 1)) by (rewrite minus_IZR; lra).
    rewrite minus_IZR. destruct (Rlt_dec _ _); [lra|].
    destruct (Rlt_dec _ _); [lia|lra].
Qed.

Lemma roundZ_IZR n : roundZ (IZR n) = n.
Proof. apply roundZ_near. rewrite Rminus_diag_eq, Rabs_R0 by reflexivity. lra. Qed.

Lemma sign_pos x : 0 < x -> sign x = 1.
Proof. intros. unfold sign. destruct (Rlt_dec x 0); [lra|]. destruct (Rlt_dec 0 x); lra. Qed.
Lemma sign_neg x : x < 0 -> sign x = -1.
Proof. intros. unfold sign. destruct (Rlt_dec x 0); lra. Qed.
Lemma sign_0 : sign 0 = 0.
Proof. unfold sign. destruct (Rlt_dec 0 0); [lra|]. destruct (Rlt_dec 0 0); lra. Qed.
Lemma sign_mult_abs x : sign x * Rabs x = x.
Proof.
  destruct (Rlt_dec x 0).
  - rewrite sign_neg, Rabs_left by lra. lra.
  - destruct (Rlt_dec 0 x).
    + rewrite sign_pos, Rabs_right by lra. lra.
    + assert (x = 0) by lra. subst. rewrite sign_0. lra.
Qed.
Lemma sign_sqr x : x <> 0 -> sign x * sign x = 1.
Proof.
  intros. destruct (Rlt_dec x 0).
  - rewrite sign_neg by lra. lra.
  - rewrite sign_pos by lra. lra.
Qed.

(** *** sin / cos helpers *)
Lemma sc1 x : sin x * sin x + cos x * cos x = 1.
Proof. pose proof (sin2_cos2 x) as H. unfold Rsqr in H. exact H. Qed.

Lemma cos_atan_pos x : 0 < cos (atan x).
Proof. apply cos_gt_0; pose proof (atan_bound x); lra. Qed.

Lemma sin_atan_cos x : sin (atan x) = x * cos (atan x).
Proof.
  pose proof (cos_atan_pos x). pose proof (tan_atan x) as T. unfold tan in T.
  rewrite <- T at 2. field. lra.
Qed.

Lemma cos_atan_sqr x : cos (atan x) * cos (atan x) * (1 + x * x) = 1.
Proof.
  pose proof (sc1 (atan x)) as H. rewrite sin_atan_cos in H. lra.
Qed.

Lemma cos_atan_eq x : cos (atan x) = / sqrt (1 + x * x).
Proof.
  assert (0 < 1 + x * x) by nra.
  pose proof (cos_atan_sqr x). pose proof (cos_atan_pos x).
  apply Rmult_eq_reg_r with (sqrt (1 + x * x)).
  2:{ apply Rgt_not_eq, sqrt_lt_R0; lra. }
  rewrite Rinv_l by (apply Rgt_not_eq, sqrt_lt_R0; lra).
  rewrite <- (sqrt_square (cos (atan x))) by lra.
  rewrite <- sqrt_mult by nra. rewrite H0. apply sqrt_1.
Qed.

Lemma sqrt_scale x y : 0 < x -> sqrt (x * x + y * y) = x * sqrt (1 + (y / x) * (y / x)).
Proof.
  intros. rewrite <- (sqrt_square x) at 3 by lra.
  rewrite <- sqrt_mult by nra. f_equal. field. lra.
Qed.

Lemma arctan2_cos_sin y x :
  sqrt (x * x + y * y) * cos (arctan2 y x) = x /\
  sqrt (x * x + y * y) * sin (arctan2 y x) = y.
Proof.
  assert (POS : forall x y, 0 < x ->
     sqrt (x * x + y * y) * cos (atan (y / x)) = x /\
     sqrt (x * x + y * y) * sin (atan (y / x)) = y).
  { clear. intros x y H. rewrite sin_atan_cos, cos_atan_eq, sqrt_scale by lra.
    assert (0 < 1 + y / x * (y / x)) by nra.
    pose proof (sqrt_lt_R0 _ H0). split; field; repeat split; lra. }
  unfold arctan2.
  destruct (Rlt_dec 0 x) as [Hx|Hx]; [apply POS; lra|].
  destruct (Rlt_dec x 0) as [Hx2|Hx2].
  - destruct (POS (- x) (- y)) as [A B]; [lra|].
    replace (- x * - x + - y * - y) with (x * x + y * y) in A, B by ring.
    replace (- y / - x) with (y / x) in A, B by (field; lra).
    destruct (Rle_dec 0 y).
    + rewrite neg_cos, neg_sin. split; lra.
    + replace (atan (y / x) - PI) with (- (PI - atan (y/x))) by ring.
      rewrite cos_neg, sin_neg, <- cos_neg.
      replace (- (PI - atan (y / x))) with (atan (y/x) + PI - 2 * PI) by ring.
      unfold Rminus at 1.
      rewrite cos_plus, (cos_neg (2*PI)), (sin_neg (2*PI)), cos_2PI, sin_2PI, neg_cos.
      rewrite sin_PI_x. split; lra.
  - assert (x = 0) by lra. subst x.
    replace (0 * 0 + y * y) with (y * y) by ring.
    destruct (Rlt_dec 0 y).
    + rewrite cos_PI2, sin_PI2, sqrt_square by lra. lra.
    + destruct (Rlt_dec y 0).
      * replace (- PI / 2) with (- (PI / 2)) by field.
        rewrite cos_neg, sin_neg, cos_PI2, sin_PI2.
        replace (y * y) with (- y * - y) by ring. rewrite sqrt_square by lra. lra.
      * assert (y = 0) by lra. subst y. rewrite cos_0, sin_0, Rmult_0_l, sqrt_0. lra.
Qed.

Lemma arctan2_bound y x : - PI < arctan2 y x <= PI.
Proof.
  pose proof PI_RGT_0. pose proof (atan_bound (y / x)) as B.
  unfold arctan2.
  destruct (Rlt_dec 0 x); [lra|].
  destruct (Rlt_dec x 0).
  - destruct (Rle_dec 0 y).
    + assert (y / x <= 0).
      { unfold Rdiv. assert (/ x < 0) by (apply Rinv_lt_0_compat; lra). nra. }
      assert (atan (y / x) <= 0).
      { destruct H0 as [H0|H0].
        - left. rewrite <- atan_0. apply atan_increasing; lra.
        - rewrite H0, atan_0. lra. }
      lra.
    + assert (0 < y / x).
      { unfold Rdiv. assert (/ x < 0) by (apply Rinv_lt_0_compat; lra). nra. }
      assert (0 < atan (y / x)).
      { rewrite <- atan_0. apply atan_increasing; lra. }
      lra.
  - destruct (Rlt_dec 0 y); [lra|]. destruct (Rlt_dec y 0); lra.
Qed.

(** Angles in (-pi, pi] are determined by their cosine and sine. *)
Lemma angle_unique a b :
  - PI < a <= PI -> - PI < b <= PI -> cos a = cos b -> sin a = sin b -> a = b.
Proof.
  intros Ha Hb Hc Hs.
  assert (C : cos (a - b) = 1).
  { rewrite cos_minus, Hc, Hs. pose proof (sc1 b). lra. }
  assert (D : sin ((a - b) / 2) = 0).
  { replace (a - b) with (2 * ((a - b) / 2)) in C by field.
    rewrite cos_2a_sin in C.
    assert (sin ((a - b) / 2) * sin ((a - b) / 2) = 0) by lra.
    apply Rmult_integral in H. destruct H; lra. }
  assert (- PI < (a - b) / 2 < PI) by lra.
  destruct (Rtotal_order ((a - b) / 2) 0) as [H0|[H0|H0]].
  - assert (0 < sin (- ((a - b) / 2))) by (apply sin_gt_0; lra).
    rewrite sin_neg in H1. lra.
  - lra.
  - assert (0 < sin ((a - b) / 2)) by (apply sin_gt_0; lra). lra.
Qed.

Lemma arctan2_polar r a : 0 < r -> - PI < a <= PI -> arctan2 (r * sin a) (r * cos a) = a.
Proof.
  intros Hr Ha.
  destruct (arctan2_cos_sin (r * sin a) (r * cos a)) as [C S].
  replace (r * cos a * (r * cos a) + r * sin a * (r * sin a))
    with (r * r * (sin a * sin a + cos a * cos a)) in C, S by ring.
  rewrite sc1, Rmult_1_r, sqrt_square in C, S by lra.
  apply angle_unique; [apply arctan2_bound|lra| |].
  - apply Rmult_eq_reg_l with r; lra.
  - apply Rmult_eq_reg_l with r; lra.
Qed.

Lemma arctan2_scale k y x : 0 < k -> arctan2 (k * y) (k * x) = arctan2 y x.
Proof.
  intros Hk.
  destruct (Req_dec (x * x + y * y) 0) as [H0|H0].
  - assert (x = 0 /\ y = 0) as [-> ->] by nra. rewrite Rmult_0_r. reflexivity.
  - assert (0 < x * x + y * y) by nra.
    destruct (arctan2_cos_sin y x) as [C S].
    pose proof (sqrt_lt_R0 _ H) as Hs.
    replace (k * y) with (k * sqrt (x * x + y * y) * sin (arctan2 y x))
      by (rewrite Rmult_assoc, S; reflexivity).
    replace (k * x) with (k * sqrt (x * x + y * y) * cos (arctan2 y x))
      by (rewrite Rmult_assoc, C; reflexivity).
    apply arctan2_polar; [nra|apply arctan2_bound].
Qed.

Lemma arctan2_nonneg y x : 0 <= y -> 0 <= arctan2 y x.
Proof.
  intros Hy. pose proof (arctan2_bound y x) as B.
  destruct (Rle_dec 0 (arctan2 y x)); [assumption|exfalso].
  destruct (arctan2_cos_sin y x) as [C S].
  assert (sin (arctan2 y x) < 0).
  { assert (0 < sin (- arctan2 y x)) by (apply sin_gt_0; lra).
    rewrite sin_neg in H. lra. }
  pose proof (sqrt_pos (x * x + y * y)).
  destruct H0 as [H0|H0]; [nra|].
  assert (x * x + y * y = 0) by (apply sqrt_eq_0; [nra|lra]).
  assert (x = 0 /\ y = 0) as [-> ->] by nra.
  revert n. unfold arctan2. repeat (destruct (Rlt_dec _ _); try lra).
Qed.

(** *** tangent helpers *)
Lemma sin_tan_cos a : cos a <> 0 -> sin a = tan a * cos a.
Proof. intros. unfold tan. field. assumption. Qed.

Lemma cos_Zperiod x k : cos (x + 2 * IZR k * PI) = cos x.
Proof.
  destruct (Z.le_ge_cases 0 k) as [H|H].
  - rewrite <- (Z2Nat.id k) by lia. rewrite <- INR_IZR_INZ. apply cos_period.
  - rewrite <- (cos_period (x + 2 * IZR k * PI) (Z.to_nat (- k))).
    rewrite INR_IZR_INZ, Z2Nat.id, opp_IZR by lia. f_equal. ring.
Qed.

Lemma sin_Zperiod x k : sin (x + 2 * IZR k * PI) = sin x.
Proof.
  destruct (Z.le_ge_cases 0 k) as [H|H].
  - rewrite <- (Z2Nat.id k) by lia. rewrite <- INR_IZR_INZ. apply sin_period.
  - rewrite <- (sin_period (x + 2 * IZR k * PI) (Z.to_nat (- k))).
    rewrite INR_IZR_INZ, Z2Nat.id, opp_IZR by lia. f_equal. ring.
Qed.
