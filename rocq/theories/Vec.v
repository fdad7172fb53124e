(** 3-vectors and 3x3 matrices (NumPy arrays of shape (3,) and (3,3)) and the rotations of
    [scipy.spatial.transform.Rotation] that gggears uses. *)
From Coq Require Import Reals Lra Lia Psatz Nsatz.
From Verif Require Import Num.
Open Scope R_scope.

(** [np.array([x, y, z])], used throughout; constants in defs.py 33-48. *)
Record vec : Type := V { vx : R; vy : R; vz : R }.

(** 3x3 [np.array], used throughout; defs.py 48. *)
Record mat : Type := M {
  m11 : R; m12 : R; m13 : R;
  m21 : R; m22 : R; m23 : R;
  m31 : R; m32 : R; m33 : R }.

(** src/gggears/defs.py lines 33-48. *)
Definition ORIGIN : vec := V 0 0 0.
(** defs.py 42. *)
Definition LEFT : vec := V (-1) 0 0.
(** defs.py 40. *)
Definition RIGHT : vec := V 1 0 0.
(** defs.py 36. *)
Definition UP : vec := V 0 1 0.
(** defs.py 38. *)
Definition DOWN : vec := V 0 (-1) 0.
(** defs.py 46. *)
Definition OUT : vec := V 0 0 1.
(** defs.py 44. *)
Definition IN : vec := V 0 0 (-1).
(** defs.py 48. *)
Definition UNIT3X3 : mat := M 1 0 0 0 1 0 0 0 1.

(** NumPy [a + b]. *)
Definition vadd (a b : vec) : vec := V (vx a + vx b) (vy a + vy b) (vz a + vz b).
(** NumPy [a - b]. *)
Definition vsub (a b : vec) : vec := V (vx a - vx b) (vy a - vy b) (vz a - vz b).
(** NumPy [-a]. *)
Definition vopp (a : vec) : vec := V (- vx a) (- vy a) (- vz a).
(** NumPy [k * a]. *)
Definition smul (k : R) (a : vec) : vec := V (k * vx a) (k * vy a) (k * vz a).
(** [np.dot]. *)
Definition dot (a b : vec) : R := vx a * vx b + vy a * vy b + vz a * vz b.
(** [np.cross]. *)
Definition cross (a b : vec) : vec :=
  V (vy a * vz b - vz a * vy b) (vz a * vx b - vx a * vz b) (vx a * vy b - vy a * vx b).
(** [np.linalg.norm]. *)
Definition norm (a : vec) : R := sqrt (dot a a).

(** NumPy [A @ v]; [Rotation.apply]. *)
Definition mapp (A : mat) (p : vec) : vec :=
  V (m11 A * vx p + m12 A * vy p + m13 A * vz p)
    (m21 A * vx p + m22 A * vy p + m23 A * vz p)
    (m31 A * vx p + m32 A * vy p + m33 A * vz p).
(** NumPy [A.transpose()]. *)
Definition mtrans (A : mat) : mat :=
  M (m11 A) (m21 A) (m31 A) (m12 A) (m22 A) (m32 A) (m13 A) (m23 A) (m33 A).
(** NumPy [A @ B]. *)
Definition mmul (A B : mat) : mat :=
  M (m11 A * m11 B + m12 A * m21 B + m13 A * m31 B)
    (m11 A * m12 B + m12 A * m22 B + m13 A * m32 B)
    (m11 A * m13 B + m12 A * m23 B + m13 A * m33 B)
    (m21 A * m11 B + m22 A * m21 B + m23 A * m31 B)
    (m21 A * m12 B + m22 A * m22 B + m23 A * m32 B)
    (m21 A * m13 B + m22 A * m23 B + m23 A * m33 B)
    (m31 A * m11 B + m32 A * m21 B + m33 A * m31 B)
    (m31 A * m12 B + m32 A * m22 B + m33 A * m32 B)
    (m31 A * m13 B + m32 A * m23 B + m33 A * m33 B).
(** NumPy [k * A]. *)
Definition mscale (k : R) (A : mat) : mat :=
  M (k * m11 A) (k * m12 A) (k * m13 A) (k * m21 A) (k * m22 A) (k * m23 A)
    (k * m31 A) (k * m32 A) (k * m33 A).
(** Determinant; used in statements only. *)
Definition det (A : mat) : R :=
  m11 A * (m22 A * m33 A - m23 A * m32 A)
  - m12 A * (m21 A * m33 A - m23 A * m31 A)
  + m13 A * (m21 A * m32 A - m22 A * m31 A).

(** Columns of a matrix. NumPy [A[:, 0]], gggears_base_classes.py 65-75. *)
Definition col1 (A : mat) : vec := V (m11 A) (m21 A) (m31 A).
(** NumPy [A[:, 1]], gggears_base_classes.py 65-75. *)
Definition col2 (A : mat) : vec := V (m12 A) (m22 A) (m32 A).
(** NumPy [A[:, 2]], gggears_base_classes.py 65-75. *)
Definition col3 (A : mat) : vec := V (m13 A) (m23 A) (m33 A).
(** [np.array([x, y, z]).T], curve.py 1214-1306. *)
Definition of_cols (a b c : vec) : mat :=
  M (vx a) (vx b) (vx c) (vy a) (vy b) (vy c) (vz a) (vz b) (vz c).

(** Row vector times matrix: [v @ A]. gggears_base_classes.py 105-122. *)
Definition vmat (p : vec) (A : mat) : vec := mapp (mtrans A) p.

(** Orthogonal matrices / rotations. Used in statements only, no code. *)
Definition orthogonal (A : mat) : Prop := mmul (mtrans A) A = UNIT3X3.
(** Used in statements only, no code. *)
Definition rotation (A : mat) : Prop := orthogonal A /\ det A = 1.

(** scipy [Rotation.from_euler] for single lower-case axes. Used in gggears_core.py 43-112. *)
Definition rotx (a : R) : mat := M 1 0 0 0 (cos a) (- sin a) 0 (sin a) (cos a).
(** Used in gggears_core.py 928-933. *)
Definition roty (a : R) : mat := M (cos a) 0 (sin a) 0 1 0 (- sin a) 0 (cos a).
(** Used in gggears_base_classes.py 177-254. *)
Definition rotz (a : R) : mat := M (cos a) (- sin a) 0 (sin a) (cos a) 0 0 0 1.

(** scipy [Rotation.from_euler("zyx", [a, b, c])]: extrinsic, z first, then y, then x. Used in curve.py 1128-1131. *)
Definition euler_zyx (a b c : R) : mat := mmul (rotx c) (mmul (roty b) (rotz a)).

(** Rodrigues' formula for unit axis [u] and angle [a]. function_generators.py 18-20. *)
Definition rodrigues (u : vec) (a : R) : mat :=
  let c := cos a in let s := sin a in let k := 1 - cos a in
  M (c + k * vx u * vx u) (k * vx u * vy u - s * vz u) (k * vx u * vz u + s * vy u)
    (k * vy u * vx u + s * vz u) (c + k * vy u * vy u) (k * vy u * vz u - s * vx u)
    (k * vz u * vx u - s * vy u) (k * vz u * vy u + s * vx u) (c + k * vz u * vz u).

(** scipy [Rotation.from_rotvec]. function_generators.py 18-20. *)
Definition from_rotvec (v : vec) : mat :=
  if Req_EM_T (norm v) 0 then UNIT3X3 else rodrigues (smul (/ norm v) v) (norm v).

(** ** Facts *)

Lemma vec_eq a b : vx a = vx b -> vy a = vy b -> vz a = vz b -> a = b.
Proof. destruct a, b; simpl; intros; subst; reflexivity. Qed.

Lemma mat_eq A B :
  m11 A = m11 B -> m12 A = m12 B -> m13 A = m13 B ->
  m21 A = m21 B -> m22 A = m22 B -> m23 A = m23 B ->
  m31 A = m31 B -> m32 A = m32 B -> m33 A = m33 B -> A = B.
Proof. destruct A, B; simpl; intros; subst; reflexivity. Qed.

(** Solve vector/matrix identities by components. *)
Ltac vec_simpl := cbv [vadd vsub vopp smul dot cross mapp mtrans mmul mscale det col1 col2 col3
  of_cols vmat rotx roty rotz euler_zyx rodrigues ORIGIN LEFT RIGHT UP DOWN OUT IN UNIT3X3
  vx vy vz m11 m12 m13 m21 m22 m23 m31 m32 m33] in *.
Ltac vec_ring := intros; repeat match goal with v : vec |- _ => destruct v | A : mat |- _ => destruct A end;
  vec_simpl; try (apply vec_eq || apply mat_eq); vec_simpl; try ring.

Lemma vadd_comm a b : vadd a b = vadd b a. Proof. vec_ring. Qed.
Lemma vadd_assoc a b c : vadd a (vadd b c) = vadd (vadd a b) c. Proof. vec_ring. Qed.
Lemma vadd_0_l a : vadd ORIGIN a = a. Proof. vec_ring. Qed.
Lemma vadd_0_r a : vadd a ORIGIN = a. Proof. vec_ring. Qed.
Lemma vsub_diag a : vsub a a = ORIGIN. Proof. vec_ring. Qed.
Lemma vsub_0_r a : vsub a ORIGIN = a. Proof. vec_ring. Qed.
Lemma vadd_vsub a b : vadd (vsub a b) b = a. Proof. vec_ring. Qed.
Lemma vsub_vadd a b : vsub (vadd a b) b = a. Proof. vec_ring. Qed.
Lemma smul_1 a : smul 1 a = a. Proof. vec_ring. Qed.
Lemma smul_0 a : smul 0 a = ORIGIN. Proof. vec_ring. Qed.
Lemma smul_ORIGIN k : smul k ORIGIN = ORIGIN. Proof. vec_ring. Qed.
Lemma smul_smul k l a : smul k (smul l a) = smul (k * l) a. Proof. vec_ring. Qed.
Lemma smul_vadd k a b : smul k (vadd a b) = vadd (smul k a) (smul k b). Proof. vec_ring. Qed.
Lemma smul_plus k l a : smul (k + l) a = vadd (smul k a) (smul l a). Proof. vec_ring. Qed.
Lemma mapp_mmul A B p : mapp (mmul A B) p = mapp A (mapp B p). Proof. vec_ring. Qed.
Lemma mmul_assoc A B C : mmul A (mmul B C) = mmul (mmul A B) C. Proof. vec_ring. Qed.
Lemma mmul_I_l A : mmul UNIT3X3 A = A. Proof. vec_ring. Qed.
Lemma mmul_I_r A : mmul A UNIT3X3 = A. Proof. vec_ring. Qed.
Lemma mapp_I p : mapp UNIT3X3 p = p. Proof. vec_ring. Qed.
Lemma mapp_vadd A p q : mapp A (vadd p q) = vadd (mapp A p) (mapp A q). Proof. vec_ring. Qed.
Lemma mapp_vsub A p q : mapp A (vsub p q) = vsub (mapp A p) (mapp A q). Proof. vec_ring. Qed.
Lemma mapp_smul A k p : mapp A (smul k p) = smul k (mapp A p). Proof. vec_ring. Qed.
Lemma mapp_ORIGIN A : mapp A ORIGIN = ORIGIN. Proof. vec_ring. Qed.
Lemma mtrans_mmul A B : mtrans (mmul A B) = mmul (mtrans B) (mtrans A). Proof. vec_ring. Qed.
Lemma mtrans_inv A : mtrans (mtrans A) = A. Proof. vec_ring. Qed.
Lemma det_mmul A B : det (mmul A B) = det A * det B. Proof. vec_ring. Qed.
Lemma det_mtrans A : det (mtrans A) = det A. Proof. vec_ring. Qed.
Lemma dot_comm a b : dot a b = dot b a. Proof. vec_ring. Qed.
Lemma dot_mapp A p q : dot (mapp A p) q = dot p (mapp (mtrans A) q). Proof. vec_ring. Qed.
Lemma dot_vadd_l a b c : dot (vadd a b) c = dot a c + dot b c. Proof. vec_ring. Qed.
Lemma dot_vsub_l a b c : dot (vsub a b) c = dot a c - dot b c. Proof. vec_ring. Qed.
Lemma dot_smul_l k a b : dot (smul k a) b = k * dot a b. Proof. vec_ring. Qed.
Lemma dot_smul_r k a b : dot a (smul k b) = k * dot a b. Proof. vec_ring. Qed.
Lemma lagrange a b : dot (cross a b) (cross a b) = dot a a * dot b b - dot a b * dot a b.
Proof. vec_ring. Qed.

Lemma mat_ext A B : (forall p, mapp A p = mapp B p) -> A = B.
Proof.
  intros H. pose proof (H RIGHT) as H1. pose proof (H UP) as H2. pose proof (H OUT) as H3.
  destruct A, B. vec_simpl. injection H1; injection H2; injection H3; intros.
  f_equal; lra.
Qed.

Lemma dot_nonneg a : 0 <= dot a a.
Proof. destruct a; vec_simpl; nra. Qed.

Lemma dot_zero a : dot a a = 0 -> a = ORIGIN.
Proof. destruct a; vec_simpl; intros; apply vec_eq; simpl; nra. Qed.

Lemma norm_nonneg a : 0 <= norm a.
Proof. apply sqrt_pos. Qed.

Lemma norm_sqr a : norm a * norm a = dot a a.
Proof. apply sqrt_sqrt, dot_nonneg. Qed.

Lemma norm_zero a : norm a = 0 -> a = ORIGIN.
Proof. intros H. apply dot_zero. rewrite <- norm_sqr, H. ring. Qed.

Lemma norm_pos a : a <> ORIGIN -> 0 < norm a.
Proof.
  intros H. destruct (norm_nonneg a) as [P|P]; [exact P|].
  exfalso. apply H, norm_zero. lra.
Qed.

Lemma norm_smul k a : norm (smul k a) = Rabs k * norm a.
Proof.
  unfold norm. rewrite dot_smul_l, dot_smul_r, <- Rmult_assoc.
  rewrite sqrt_mult by (try apply dot_nonneg; nra).
  f_equal. apply sqrt_Rsqr_abs.
Qed.

Lemma norm_eq a r : 0 <= r -> dot a a = r * r -> norm a = r.
Proof. intros Hr H. unfold norm. rewrite H. apply sqrt_square; assumption. Qed.

Lemma norm_vopp a : norm (vopp a) = norm a.
Proof. unfold norm. f_equal. vec_ring. Qed.

Lemma norm_ORIGIN : norm ORIGIN = 0.
Proof. unfold norm. replace (dot ORIGIN ORIGIN) with 0 by (vec_simpl; ring). apply sqrt_0. Qed.

Lemma norm_vsub_sym a b : norm (vsub a b) = norm (vsub b a).
Proof. unfold norm. f_equal. vec_ring. Qed.

(** A left inverse of a 3x3 matrix is a right inverse. *)
Lemma orthogonal_r A : orthogonal A -> mmul A (mtrans A) = UNIT3X3.
Proof.
  unfold orthogonal. destruct A as [a b c d e f g h i].
  intros H. vec_simpl. injection H; intros.
  apply mat_eq; vec_simpl; nsatz.
Qed.

Lemma orthogonal_trans A : orthogonal A -> orthogonal (mtrans A).
Proof. intros H. unfold orthogonal. rewrite mtrans_inv. apply orthogonal_r, H. Qed.

Lemma orthogonal_mmul A B : orthogonal A -> orthogonal B -> orthogonal (mmul A B).
Proof.
  unfold orthogonal. intros HA HB.
  rewrite mtrans_mmul, <- mmul_assoc, (mmul_assoc (mtrans A)), HA, mmul_I_l. exact HB.
Qed.

Lemma rotation_mmul A B : rotation A -> rotation B -> rotation (mmul A B).
Proof.
  intros [HA DA] [HB DB]. split; [apply orthogonal_mmul; assumption|].
  rewrite det_mmul, DA, DB. ring.
Qed.

Lemma rotation_trans A : rotation A -> rotation (mtrans A).
Proof. intros [H D]. split; [apply orthogonal_trans, H|]. rewrite det_mtrans. exact D. Qed.

Lemma orthogonal_dot A p q : orthogonal A -> dot (mapp A p) (mapp A q) = dot p q.
Proof.
  intros H. rewrite dot_mapp, <- mapp_mmul, H, mapp_I. reflexivity.
Qed.

Lemma orthogonal_norm A p : orthogonal A -> norm (mapp A p) = norm p.
Proof. intros H. unfold norm. rewrite orthogonal_dot by exact H. reflexivity. Qed.

Lemma orthogonal_inv_l A p : orthogonal A -> mapp (mtrans A) (mapp A p) = p.
Proof. intros H. rewrite <- mapp_mmul, H, mapp_I. reflexivity. Qed.

Lemma orthogonal_inv_r A p : orthogonal A -> mapp A (mapp (mtrans A) p) = p.
Proof. intros H. rewrite <- mapp_mmul, (orthogonal_r _ H), mapp_I. reflexivity. Qed.

(** Rotations commute with the cross product. *)
Lemma rotation_cofactor A : rotation A ->
  m11 A = m22 A * m33 A - m23 A * m32 A /\
  m12 A = m23 A * m31 A - m21 A * m33 A /\
  m13 A = m21 A * m32 A - m22 A * m31 A /\
  m21 A = m13 A * m32 A - m12 A * m33 A /\
  m22 A = m11 A * m33 A - m13 A * m31 A /\
  m23 A = m12 A * m31 A - m11 A * m32 A /\
  m31 A = m12 A * m23 A - m13 A * m22 A /\
  m32 A = m13 A * m21 A - m11 A * m23 A /\
  m33 A = m11 A * m22 A - m12 A * m21 A.
Proof.
  intros [H D]. unfold orthogonal in H. destruct A as [a b c d e f g h i].
  vec_simpl. injection H; intros.
  repeat split; nsatz.
Qed.

Lemma rotation_cross A p q : rotation A -> mapp A (cross p q) = cross (mapp A p) (mapp A q).
Proof.
  intros H. destruct (rotation_cofactor A H) as (H1&H2&H3&H4&H5&H6&H7&H8&H9).
  destruct A as [a b c d e f g h i], p as [p1 p2 p3], q as [q1 q2 q3]. vec_simpl.
  apply vec_eq; vec_simpl.
  - rewrite H1, H2, H3 at 1. ring.
  - rewrite H4, H5, H6 at 1. ring.
  - rewrite H7, H8, H9 at 1. ring.
Qed.

Lemma rotation_rotx a : rotation (rotx a).
Proof. split; [unfold orthogonal; apply mat_eq|]; vec_simpl; pose proof (sc1 a); nra. Qed.
Lemma rotation_roty a : rotation (roty a).
Proof. split; [unfold orthogonal; apply mat_eq|]; vec_simpl; pose proof (sc1 a); nra. Qed.
Lemma rotation_rotz a : rotation (rotz a).
Proof. split; [unfold orthogonal; apply mat_eq|]; vec_simpl; pose proof (sc1 a); nra. Qed.
Lemma rotation_I : rotation UNIT3X3.
Proof. split; [unfold orthogonal; apply mat_eq|]; vec_simpl; ring. Qed.

Lemma rotation_rodrigues u a : norm u = 1 -> rotation (rodrigues u a).
Proof.
  intros H. assert (N : dot u u = 1) by (rewrite <- norm_sqr, H; ring).
  pose proof (sc1 a) as SC. destruct u as [x y z]. vec_simpl.
  set (s := sin a) in *. set (c := cos a) in *. clearbody s c.
  split; [unfold orthogonal; apply mat_eq|]; vec_simpl; nsatz.
Qed.

Lemma rotz_plus a b : mmul (rotz a) (rotz b) = rotz (a + b).
Proof. apply mat_eq; vec_simpl; rewrite ?cos_plus, ?sin_plus; ring. Qed.
Lemma roty_plus a b : mmul (roty a) (roty b) = roty (a + b).
Proof. apply mat_eq; vec_simpl; rewrite ?cos_plus, ?sin_plus; ring. Qed.
Lemma rotx_plus a b : mmul (rotx a) (rotx b) = rotx (a + b).
Proof. apply mat_eq; vec_simpl; rewrite ?cos_plus, ?sin_plus; ring. Qed.
Lemma rotz_0 : rotz 0 = UNIT3X3.
Proof. apply mat_eq; vec_simpl; rewrite ?cos_0, ?sin_0; ring. Qed.
Lemma roty_0 : roty 0 = UNIT3X3.
Proof. apply mat_eq; vec_simpl; rewrite ?cos_0, ?sin_0; ring. Qed.
Lemma rotx_0 : rotx 0 = UNIT3X3.
Proof. apply mat_eq; vec_simpl; rewrite ?cos_0, ?sin_0; ring. Qed.
Lemma rotz_neg a : mtrans (rotz a) = rotz (- a).
Proof. apply mat_eq; vec_simpl; rewrite ?cos_neg, ?sin_neg; ring. Qed.
Lemma rotz_OUT a : mapp (rotz a) OUT = OUT.
Proof. apply vec_eq; vec_simpl; ring. Qed.
Lemma rotz_comm a b : mmul (rotz a) (rotz b) = mmul (rotz b) (rotz a).
Proof. rewrite !rotz_plus. f_equal. ring. Qed.

Lemma rodrigues_axis u a : norm u = 1 -> mapp (rodrigues u a) u = u.
Proof.
  intros H. assert (N : dot u u = 1) by (rewrite <- norm_sqr, H; ring).
  destruct u as [x y z]. vec_simpl. apply vec_eq; vec_simpl; nsatz.
Qed.

Lemma rodrigues_OUT a : rodrigues OUT a = rotz a.
Proof. apply mat_eq; vec_simpl; ring. Qed.

Lemma rodrigues_neg u a : rodrigues (vopp u) (- a) = rodrigues u a.
Proof. apply mat_eq; vec_simpl; rewrite ?cos_neg, ?sin_neg; ring. Qed.

Lemma from_rotvec_axis u a : norm u = 1 -> from_rotvec (smul a u) = rodrigues u a.
Proof.
  intros H. unfold from_rotvec. rewrite norm_smul, H, Rmult_1_r.
  destruct (Req_EM_T (Rabs a) 0) as [E|E].
  - assert (a = 0) as ->.
    { destruct (Req_dec a 0); [assumption|]. pose proof (Rabs_pos_lt a H0). lra. }
    apply mat_eq; vec_simpl; rewrite ?cos_0, ?sin_0; ring.
  - destruct (Rle_dec 0 a).
    + rewrite Rabs_right in * by lra. f_equal. rewrite smul_smul, Rinv_l by lra. apply smul_1.
    + rewrite Rabs_left in * by lra.
      rewrite <- (rodrigues_neg u a). f_equal.
      rewrite smul_smul. replace (/ - a * a) with (-1) by (field; lra). vec_ring.
Qed.

Lemma mapp_rodrigues u a p :
  mapp (rodrigues u a) p =
  vadd (smul (cos a) p) (vadd (smul (sin a) (cross u p)) (smul ((1 - cos a) * dot u p) u)).
Proof. vec_ring. Qed.

Lemma vmat_mtrans p A : vmat p (mtrans A) = mapp A p.
Proof. unfold vmat. rewrite mtrans_inv. reflexivity. Qed.
