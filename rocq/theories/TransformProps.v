(** Properties C01-C07: transformations. *)
From Coq Require Import Reals Lra Psatz.
From Verif Require Import Num Vec Transform.
Open Scope R_scope.

(** ** Specifications *)

(** The map "rotate/skew by A, scale by s, shift by c" on points, written by coordinates. *)
Definition spec_similarity (A : mat) (s : R) (c p : vec) : vec :=
  V (s * (m11 A * vx p + m12 A * vy p + m13 A * vz p) + vx c)
    (s * (m21 A * vx p + m22 A * vy p + m23 A * vz p) + vy c)
    (s * (m31 A * vx p + m32 A * vy p + m33 A * vz p) + vz c).

(** Counter-clockwise rotation about the z axis, by coordinates. *)
Definition spec_turn (a : R) (p : vec) : vec :=
  V (vx p * cos a - vy p * sin a) (vx p * sin a + vy p * cos a) (vz p).

(** [f] undoes [g] on every point. *)
Definition spec_undoes (f g : vec -> vec) : Prop := forall p, f (g p) = p.

Lemma apply_transform_eq p T :
  apply_transform p T = vadd (smul (t_scale T) (mapp (t_orient T) p)) (t_center T).
Proof. unfold apply_transform. rewrite vmat_mtrans. reflexivity. Qed.

Lemma apply_gear_transform_eq p T :
  apply_gear_transform p T =
  vadd (smul (g_scale T) (mapp (g_orient T) (mapp (rotz (g_angle T)) p))) (g_center T).
Proof. unfold apply_gear_transform. rewrite !vmat_mtrans. reflexivity. Qed.

Theorem C07_apply_transform_meaning p T :
  apply_transform p T = spec_similarity (t_orient T) (t_scale T) (t_center T) p.
Proof. rewrite apply_transform_eq. unfold spec_similarity. tr_ring. Qed.

Theorem C07_apply_gear_transform_meaning p T :
  apply_gear_transform p T =
  spec_similarity (g_orient T) (g_scale T) (g_center T) (spec_turn (g_angle T) p).
Proof.
  rewrite apply_gear_transform_eq. unfold spec_similarity, spec_turn.
  destruct T as [c A s a], c, A, p. vec_simpl. cbn. apply vec_eq; cbn; ring.
Qed.

(** ** C01 *)
Theorem C01_product_is_composition A B p :
  apply_transform p (t_mul A B) = apply_transform (apply_transform p B) A.
Proof.
  rewrite !apply_transform_eq. destruct A as [c1 A s1], B as [c2 B s2].
  unfold t_mul. cbn [t_center t_orient t_scale].
  rewrite mapp_mmul, mapp_vadd, mapp_smul. vec_ring.
Qed.

Theorem C01_product_assoc A B C : t_mul A (t_mul B C) = t_mul (t_mul A B) C.
Proof.
  destruct A as [c1 A s1], B as [c2 B s2], C as [c3 C s3].
  unfold t_mul. cbn [t_center t_orient t_scale]. f_equal.
  - vec_ring.
  - apply mmul_assoc.
  - ring.
Qed.

Theorem C01_default_neutral A p :
  t_mul t_default A = A /\ t_mul A t_default = A /\ apply_transform p t_default = p.
Proof.
  destruct A as [c A s]. unfold t_mul, t_default, apply_transform.
  cbn [t_center t_orient t_scale]. repeat split.
  - f_equal; [vec_ring|apply mmul_I_l|ring].
  - f_equal; [vec_ring|apply mmul_I_r|ring].
  - vec_ring.
Qed.

(** ** C02 *)
Lemma t_invert_error A p : orthogonal (t_orient A) -> t_scale A <> 0 ->
  apply_transform (apply_transform p (t_invert A)) A =
  vadd p (smul (1 - t_scale A * t_scale A) (t_center A)).
Proof.
  intros HO Hs. rewrite !apply_transform_eq. destruct A as [c A s]. unfold t_invert.
  cbn [t_center t_orient t_scale] in *.
  rewrite mapp_vadd, mapp_smul, orthogonal_inv_r by exact HO.
  replace (mapp (mscale (-1) (mtrans A)) c) with (smul (-1) (mapp (mtrans A) c)) by vec_ring.
  rewrite !mapp_smul, orthogonal_inv_r by exact HO.
  destruct c, p. vec_simpl. apply vec_eq; vec_simpl; field; assumption.
Qed.

Lemma t_invert_error_left A p : orthogonal (t_orient A) -> t_scale A <> 0 ->
  apply_transform (apply_transform p A) (t_invert A) =
  vadd p (smul (1 / t_scale A - t_scale A) (mapp (mtrans (t_orient A)) (t_center A))).
Proof.
  intros HO Hs. rewrite !apply_transform_eq. destruct A as [c A s]. unfold t_invert.
  cbn [t_center t_orient t_scale] in *.
  rewrite mapp_vadd, mapp_smul, orthogonal_inv_l by exact HO.
  replace (mapp (mscale (-1) (mtrans A)) c) with (smul (-1) (mapp (mtrans A) c)) by vec_ring.
  destruct (mapp (mtrans A) c), p. vec_simpl. apply vec_eq; vec_simpl; field; assumption.
Qed.

Lemma smul_zero_inv k c : smul k c = ORIGIN -> k = 0 \/ c = ORIGIN.
Proof.
  intros H. destruct (Req_dec k 0) as [|N]; [left; assumption|right].
  destruct c as [x y z]. vec_simpl. injection H; intros.
  assert (x = 0 /\ y = 0 /\ z = 0) as (-> & -> & ->); [|reflexivity].
  repeat split; apply Rmult_eq_reg_l with k; lra.
Qed.

(** The round trip misses by (1 - s^2) * centre, for every point. *)
Theorem C02_invert_round_trip A p : orthogonal (t_orient A) -> t_scale A <> 0 ->
  apply_transform (apply_transform p (t_invert A)) A =
  vadd p (smul (1 - t_scale A * t_scale A) (t_center A)).
Proof. exact (t_invert_error A p). Qed.
Example C02_invert_round_trip_example :
  let A := mkT (V 3 4 5) (rotz 1) 2 in
  apply_transform (apply_transform (V 1 0 0) (t_invert A)) A = vadd (V 1 0 0) (smul (1 - 2 * 2) (V 3 4 5)).
Proof. intros A. apply (C02_invert_round_trip A); [apply (proj1 (rotation_rotz 1))|cbn; lra]. Qed.

Theorem C02_invert_exact_iff A : orthogonal (t_orient A) -> t_scale A <> 0 ->
  (spec_undoes (fun p => apply_transform p A) (fun p => apply_transform p (t_invert A))
   <-> (t_scale A * t_scale A = 1 \/ t_center A = ORIGIN))
  /\
  (spec_undoes (fun p => apply_transform p (t_invert A)) (fun p => apply_transform p A)
   <-> (t_scale A * t_scale A = 1 \/ t_center A = ORIGIN)).
Proof.
  intros HO Hs. unfold spec_undoes. split; split.
  - intros H. specialize (H ORIGIN). rewrite t_invert_error in H by assumption.
    rewrite vadd_0_l in H. apply smul_zero_inv in H. destruct H; [left; lra|right; assumption].
  - intros H p. rewrite t_invert_error by assumption. destruct H as [H|H].
    + rewrite H, Rminus_diag_eq, smul_0, vadd_0_r by reflexivity. reflexivity.
    + rewrite H, smul_ORIGIN, vadd_0_r. reflexivity.
  - intros H. specialize (H ORIGIN). rewrite t_invert_error_left in H by assumption.
    rewrite vadd_0_l in H. apply smul_zero_inv in H. destruct H as [H|H].
    + left. replace (t_scale A * t_scale A)
        with (1 - t_scale A * (1 / t_scale A - t_scale A)) by (field; assumption).
      rewrite H. ring.
    + right. rewrite <- (orthogonal_inv_r _ (t_center A) HO), H. apply mapp_ORIGIN.
  - intros H p. rewrite t_invert_error_left by assumption. destruct H as [H|H].
    + replace (1 / t_scale A - t_scale A) with 0.
      2:{ replace (1 / t_scale A - t_scale A) with ((1 - t_scale A * t_scale A) / t_scale A)
            by (field; assumption). rewrite H. field. assumption. }
      rewrite smul_0, vadd_0_r. reflexivity.
    + rewrite H, mapp_ORIGIN, smul_ORIGIN, vadd_0_r. reflexivity.
Qed.

(** A transform met in practice (module 2 gear moved by 3) is not undone by its inverse. *)
Theorem C02_invert_refuted : exists A p, orthogonal (t_orient A) /\ t_scale A <> 0 /\
  apply_transform (apply_transform p (t_invert A)) A <> p.
Proof.
  exists (mkT (V 3 0 0) UNIT3X3 2), ORIGIN. cbn [t_orient t_scale].
  split; [apply rotation_I|]. split; [lra|].
  rewrite t_invert_error; cbn; [|apply rotation_I|lra].
  intros H. injection H. lra.
Qed.

Example C02_example_ok :
  let A := mkT (V 3 4 5) (rotz 1) 1 in
  apply_transform (apply_transform (V 1 2 3) A) (t_invert A) = V 1 2 3.
Proof.
  intros A. apply (proj2 (C02_invert_exact_iff A (proj1 (rotation_rotz 1)) R1_neq_R0)).
  left. cbn. ring.
Qed.

(** ** C03 *)
Definition commutes_with_turn (B : mat) (a : R) : Prop :=
  forall p, mapp B (spec_turn a p) = spec_turn a (mapp B p).

Lemma spec_turn_rotz a p : spec_turn a p = mapp (rotz a) p.
Proof. unfold spec_turn. vec_ring. Qed.

Lemma commutes_mat B a : commutes_with_turn B a <-> mmul B (rotz a) = mmul (rotz a) B.
Proof.
  unfold commutes_with_turn. split.
  - intros H. apply mat_ext. intros p. specialize (H p). rewrite !spec_turn_rotz in H.
    rewrite !mapp_mmul. exact H.
  - intros H p. rewrite !spec_turn_rotz, <- !mapp_mmul, H. reflexivity.
Qed.

Lemma g_mul_apply A B p :
  apply_gear_transform p (g_mul A B) =
  vadd (smul (g_scale A * g_scale B)
             (mapp (g_orient A) (mapp (g_orient B)
                (mapp (rotz (g_angle A)) (mapp (rotz (g_angle B)) p)))))
       (apply_gear_transform (g_center B) A).
Proof.
  rewrite !apply_gear_transform_eq. destruct A as [c1 A s1 a1], B as [c2 B s2 a2].
  unfold g_mul. cbn [g_center g_orient g_scale g_angle].
  rewrite <- rotz_plus, !mapp_mmul. vec_ring.
Qed.

Lemma g_comp_apply A B p :
  apply_gear_transform (apply_gear_transform p B) A =
  vadd (smul (g_scale A * g_scale B)
             (mapp (g_orient A) (mapp (rotz (g_angle A)) (mapp (g_orient B)
                 (mapp (rotz (g_angle B)) p)))))
       (apply_gear_transform (g_center B) A).
Proof.
  rewrite !apply_gear_transform_eq. rewrite !mapp_vadd, !mapp_smul.
  rewrite smul_vadd, smul_smul, vadd_assoc. reflexivity.
Qed.

Lemma vadd_cancel_r a b c : vadd a c = vadd b c -> a = b.
Proof. intros H. rewrite <- (vsub_vadd a c), H. apply vsub_vadd. Qed.

Lemma smul_cancel k a b : k <> 0 -> smul k a = smul k b -> a = b.
Proof.
  intros N H. rewrite <- (smul_1 a), <- (smul_1 b).
  replace 1 with (/ k * k) by (field; assumption). rewrite <- !smul_smul, H. reflexivity.
Qed.

Lemma mapp_cancel A p q : orthogonal A -> mapp A p = mapp A q -> p = q.
Proof. intros HO H. rewrite <- (orthogonal_inv_l A p HO), H. apply orthogonal_inv_l, HO. Qed.

Theorem C03_product_is_composition_iff A B :
  orthogonal (g_orient A) -> g_scale A <> 0 -> g_scale B <> 0 ->
  ((forall p, apply_gear_transform p (g_mul A B) =
              apply_gear_transform (apply_gear_transform p B) A)
   <-> commutes_with_turn (g_orient B) (g_angle A)).
Proof.
  intros HO HA HB. split.
  - intros H. intros q. specialize (H (mapp (rotz (- g_angle B)) q)).
    rewrite g_mul_apply, g_comp_apply in H. apply vadd_cancel_r in H.
    apply smul_cancel in H; [|apply Rmult_integral_contrapositive; split; assumption].
    apply mapp_cancel in H; [|exact HO].
    rewrite <- (mapp_mmul (rotz (g_angle B))) in H.
    rewrite rotz_plus, Rplus_opp_r, rotz_0, mapp_I in H.
    rewrite !spec_turn_rotz. exact H.
  - intros H p. rewrite g_mul_apply, g_comp_apply. do 3 f_equal.
    specialize (H (mapp (rotz (g_angle B)) p)). rewrite !spec_turn_rotz in H. exact H.
Qed.
Example C03_product_is_composition_iff_example :
  let A := mkG (V 1 2 3) (rotx 1) 2 (1 / 2) in let B := mkG (V 0 0 1) UNIT3X3 3 1 in
  (forall p, apply_gear_transform p (g_mul A B) = apply_gear_transform (apply_gear_transform p B) A)
  <-> commutes_with_turn UNIT3X3 (1 / 2).
Proof. intros A B. apply (C03_product_is_composition_iff A B); [apply (proj1 (rotation_rotx 1))|cbn; lra|cbn; lra]. Qed.

(** Slice transforms made by the recipes have identity orientation (any rotation about z
    works): for them the product is composition, without side conditions on the scale. *)
Theorem C03_product_is_composition_z_aligned A B b p :
  g_orient B = rotz b ->
  apply_gear_transform p (g_mul A B) = apply_gear_transform (apply_gear_transform p B) A.
Proof.
  intros H. rewrite g_mul_apply, g_comp_apply, H. do 3 f_equal.
  rewrite <- !(mapp_mmul (rotz _) (rotz _)). rewrite rotz_comm. reflexivity.
Qed.
Example C03_product_is_composition_z_aligned_example :
  let A := mkG (V 1 2 3) (rotx 1) 2 (1 / 2) in let B := mkG (V 4 0 1) (rotz 2) 3 1 in
  apply_gear_transform (V 1 1 1) (g_mul A B) = apply_gear_transform (apply_gear_transform (V 1 1 1) B) A.
Proof. intros A B. apply (C03_product_is_composition_z_aligned A B 2). reflexivity. Qed.

Theorem C03_product_is_composition_identity A B p :
  g_orient B = UNIT3X3 ->
  apply_gear_transform p (g_mul A B) = apply_gear_transform (apply_gear_transform p B) A.
Proof. intros H. apply C03_product_is_composition_z_aligned with 0. rewrite rotz_0. exact H. Qed.
Example C03_product_is_composition_identity_example :
  let A := mkG (V 1 2 3) (rotx 1) 2 (1 / 2) in let B := mkG (V 4 0 1) UNIT3X3 3 1 in
  apply_gear_transform (V 1 1 1) (g_mul A B) = apply_gear_transform (apply_gear_transform (V 1 1 1) B) A.
Proof. intros A B. apply (C03_product_is_composition_identity A B). reflexivity. Qed.

Lemma cos_PI2_ : cos (PI / 2) = 0. Proof. apply cos_PI2. Qed.

(** Refuted for tilted right operands: turn by 90 degrees about z, then about x. *)
Theorem C03_product_refuted : exists A B p,
  rotation (g_orient A) /\ rotation (g_orient B) /\
  apply_gear_transform p (g_mul A B) <> apply_gear_transform (apply_gear_transform p B) A.
Proof.
  exists (mkG ORIGIN UNIT3X3 1 (PI / 2)), (mkG ORIGIN (rotx (PI / 2)) 1 0), OUT.
  cbn [g_orient]. split; [apply rotation_I|]. split; [apply rotation_rotx|].
  rewrite g_mul_apply, g_comp_apply. intros H. apply vadd_cancel_r in H.
  vec_simpl. cbn in H. rewrite cos_PI2, sin_PI2, cos_0, sin_0 in H. injection H. lra.
Qed.

(** ** C04 *)
Theorem C04_data_product_iff A B :
  orthogonal (g_orient A) -> g_scale A <> 0 -> g_scale B <> 0 ->
  ((forall p, apply_gear_transform p (gd_mul A B) =
              apply_gear_transform (apply_gear_transform p B) A)
   <-> (commutes_with_turn (g_orient B) (g_angle A) /\
        spec_turn (g_angle A) (g_center B) = g_center B)).
Proof.
  intros HO HA HB.
  assert (E : forall p, apply_gear_transform p (gd_mul A B) =
     vadd (apply_gear_transform p (g_mul A B))
          (smul (g_scale A) (mapp (g_orient A)
             (vsub (g_center B) (mapp (rotz (g_angle A)) (g_center B)))))).
  { intros p. rewrite !apply_gear_transform_eq.
    destruct A as [c1 A s1 a1], B as [c2 B s2 a2]. unfold gd_mul, g_mul.
    cbn [g_center g_orient g_scale g_angle]. rewrite mapp_vsub, !mapp_mmul.
    destruct (mapp A c2), (mapp A (mapp (rotz a1) c2)). vec_ring. }
  split.
  - intros H.
    assert (F : spec_turn (g_angle A) (g_center B) = g_center B).
    { pose proof (H ORIGIN) as H0. rewrite E, g_mul_apply, g_comp_apply in H0.
      rewrite !mapp_ORIGIN, !smul_ORIGIN, !vadd_0_l in H0.
      assert (Z : smul (g_scale A) (mapp (g_orient A)
             (vsub (g_center B) (mapp (rotz (g_angle A)) (g_center B)))) = ORIGIN).
      { apply vadd_cancel_r with (apply_gear_transform (g_center B) A).
        rewrite vadd_0_l, vadd_comm. exact H0. }
      apply smul_zero_inv in Z. destruct Z as [Z|Z]; [contradiction|].
      assert (Y : vsub (g_center B) (mapp (rotz (g_angle A)) (g_center B)) = ORIGIN).
      { apply (mapp_cancel (g_orient A)); [exact HO|]. rewrite Z, mapp_ORIGIN. reflexivity. }
      rewrite spec_turn_rotz.
      rewrite <- (vadd_vsub (g_center B) (mapp (rotz (g_angle A)) (g_center B))) at 2.
      rewrite Y, vadd_0_l. reflexivity. }
    split; [|exact F].
    apply (C03_product_is_composition_iff A B HO HA HB). intros p.
    rewrite <- H, E, <- spec_turn_rotz, F, vsub_diag, mapp_ORIGIN, smul_ORIGIN, vadd_0_r.
    reflexivity.
  - intros [H1 H2] p. rewrite E, <- spec_turn_rotz, H2, vsub_diag, mapp_ORIGIN, smul_ORIGIN, vadd_0_r.
    apply (C03_product_is_composition_iff A B HO HA HB), H1.
Qed.
Example C04_data_product_iff_example :
  let A := mkG (V 1 2 3) (rotx 1) 2 (1 / 2) in let B := mkG (V 0 0 1) UNIT3X3 3 1 in
  (forall p, apply_gear_transform p (gd_mul A B) = apply_gear_transform (apply_gear_transform p B) A)
  <-> (commutes_with_turn UNIT3X3 (1 / 2) /\ spec_turn (1 / 2) (V 0 0 1) = V 0 0 1).
Proof. intros A B. apply (C04_data_product_iff A B); [apply (proj1 (rotation_rotx 1))|cbn; lra|cbn; lra]. Qed.

(** The two classes' products differ already for unrotated gears (module 1, quarter turn). *)
Theorem C04_data_product_refuted : exists A B p,
  g_orient A = UNIT3X3 /\ g_orient B = UNIT3X3 /\
  apply_gear_transform p (gd_mul A B) <> apply_gear_transform (apply_gear_transform p B) A.
Proof.
  exists (mkG ORIGIN UNIT3X3 1 (PI / 2)), (mkG RIGHT UNIT3X3 1 0), ORIGIN.
  repeat split. rewrite !apply_gear_transform_eq. vec_simpl. cbn.
  rewrite cos_PI2, sin_PI2, cos_0, sin_0. intros H. injection H. lra.
Qed.

(** Identity orientation: the data inverse misses by (1 - s^2) * centre, so it fails for
    every displaced gear with scale other than +-1. *)
Theorem C04_data_invert_round_trip A p :
  g_orient A = UNIT3X3 -> g_scale A <> 0 ->
  apply_gear_transform (apply_gear_transform p (gd_invert A)) A =
  vadd p (smul (1 - g_scale A * g_scale A) (g_center A)).
Proof.
  intros HI Hs. rewrite !apply_gear_transform_eq. destruct A as [c A s a].
  cbn [g_orient g_scale g_center] in *. subst A. unfold gd_invert.
  cbn [g_center g_orient g_scale g_angle].
  replace (mtrans UNIT3X3) with UNIT3X3 by vec_ring.
  rewrite !mapp_I, mapp_vadd, !mapp_smul, <- mapp_mmul, rotz_plus, Rplus_opp_r, rotz_0, mapp_I.
  replace (mmul (mscale (-1) UNIT3X3) (rotz (- a))) with (mscale (-1) (rotz (- a))) by vec_ring.
  replace (mapp (mscale (-1) (rotz (- a))) c) with (smul (-1) (mapp (rotz (- a)) c)) by vec_ring.
  rewrite !mapp_smul, <- mapp_mmul, rotz_plus, Rplus_opp_r, rotz_0, mapp_I.
  destruct c, p. vec_simpl. apply vec_eq; vec_simpl; field; assumption.
Qed.
Example C04_data_invert_round_trip_example :
  let A := mkG (V 1 2 3) UNIT3X3 2 (1 / 2) in
  apply_gear_transform (apply_gear_transform (V 1 1 1) (gd_invert A)) A
  = vadd (V 1 1 1) (smul (1 - 2 * 2) (V 1 2 3)).
Proof. intros A. apply (C04_data_invert_round_trip A); [reflexivity|cbn; lra]. Qed.

Theorem C04_data_invert_refuted : exists A p,
  g_orient A = UNIT3X3 /\ g_scale A <> 0 /\
  apply_gear_transform (apply_gear_transform p (gd_invert A)) A <> p.
Proof.
  exists (mkG (V 3 0 0) UNIT3X3 2 0), ORIGIN. cbn [g_orient g_scale].
  split; [reflexivity|]. split; [lra|].
  rewrite C04_data_invert_round_trip; cbn; [|reflexivity|lra].
  intros H. injection H. lra.
Qed.

(** ** C05 *)
Lemma g_invert_apply A p : g_scale A <> 0 ->
  apply_gear_transform p (g_invert A) =
  smul (/ g_scale A)
    (vsub (mapp (mtrans (g_orient A)) (mapp (rotz (- g_angle A)) p))
          (mapp (rotz (- g_angle A)) (mapp (mtrans (g_orient A)) (g_center A)))).
Proof.
  intros Hs. rewrite apply_gear_transform_eq. destruct A as [c A s a]. unfold g_invert, vmat.
  cbn [g_center g_orient g_scale g_angle] in *. rewrite rotz_neg. unfold Rdiv. rewrite Rmult_1_l.
  vec_ring.
Qed.

Theorem C05_invert_exact_iff A : orthogonal (g_orient A) -> g_scale A <> 0 ->
  (spec_undoes (fun p => apply_gear_transform p (g_invert A))
               (fun p => apply_gear_transform p A)
   <-> commutes_with_turn (g_orient A) (g_angle A)).
Proof.
  intros HO Hs. rewrite commutes_mat.
  assert (CT : mmul (g_orient A) (rotz (g_angle A)) = mmul (rotz (g_angle A)) (g_orient A)
               <-> mmul (mtrans (g_orient A)) (rotz (- g_angle A))
                   = mmul (rotz (- g_angle A)) (mtrans (g_orient A))).
  { split; intros H.
    - apply (f_equal mtrans) in H. rewrite !mtrans_mmul, rotz_neg in H. symmetry. exact H.
    - apply (f_equal mtrans) in H. rewrite !mtrans_mmul, mtrans_inv, rotz_neg, Ropp_involutive in H.
      symmetry. exact H. }
  rewrite CT. set (r := rotz (- g_angle A)). set (Q := mtrans (g_orient A)).
  assert (RR : forall q, mapp r (mapp (rotz (g_angle A)) q) = q).
  { intros q. unfold r. rewrite <- mapp_mmul, rotz_plus, Rplus_opp_l, rotz_0, mapp_I. reflexivity. }
  split.
  - intros H.
    (* first the translation part, at the point mapped to the origin's image *)
    assert (L : forall p, mapp Q (mapp r (apply_gear_transform p A)) =
                 vadd (smul (g_scale A) p) (mapp r (mapp Q (g_center A)))).
    { intros p. specialize (H p). cbn beta in H. rewrite g_invert_apply in H by assumption.
      fold r Q in H. apply (f_equal (smul (g_scale A))) in H.
      rewrite smul_smul, Rinv_r, smul_1 in H by assumption.
      rewrite <- H. rewrite vadd_vsub. reflexivity. }
    pose proof (L ORIGIN) as L0.
    rewrite apply_gear_transform_eq, !mapp_ORIGIN, !smul_ORIGIN, !vadd_0_l in L0.
    (* linear part *)
    assert (K : forall p, mapp Q (mapp r (mapp (g_orient A) (mapp (rotz (g_angle A)) p))) = p).
    { intros p. specialize (L p). rewrite apply_gear_transform_eq, !mapp_vadd, L0 in L.
      apply vadd_cancel_r in L. rewrite !mapp_smul in L. apply smul_cancel in L; assumption. }
    apply mat_ext. intros p. rewrite !mapp_mmul.
    rewrite <- (K (mapp r (mapp Q p))). do 2 f_equal.
    unfold r. rewrite <- (mapp_mmul (rotz (g_angle A))), rotz_plus, Rplus_opp_r, rotz_0, mapp_I.
    unfold Q. rewrite orthogonal_inv_r by exact HO. reflexivity.
  - intros H p. cbn beta. rewrite g_invert_apply by assumption. fold r Q.
    rewrite <- !mapp_mmul, <- H, <- mapp_vsub, apply_gear_transform_eq, vsub_vadd.
    rewrite H, mapp_mmul, mapp_smul. unfold Q at 1. rewrite orthogonal_inv_l by exact HO.
    rewrite mapp_smul, RR, smul_smul, Rinv_l, smul_1 by assumption. reflexivity.
Qed.
Example C05_invert_exact_iff_example :
  let A := mkG (V 1 2 3) (rotx 1) 2 (1 / 2) in
  spec_undoes (fun p => apply_gear_transform p (g_invert A)) (fun p => apply_gear_transform p A)
  <-> commutes_with_turn (rotx 1) (1 / 2).
Proof. intros A. apply (C05_invert_exact_iff A); [apply (proj1 (rotation_rotx 1))|cbn; lra]. Qed.

(** In particular for gears that were not tilted. *)
Theorem C05_invert_z_aligned A b p : g_orient A = rotz b -> g_scale A <> 0 ->
  apply_gear_transform (apply_gear_transform p A) (g_invert A) = p.
Proof.
  intros HO Hs.
  assert (O : orthogonal (g_orient A)) by (rewrite HO; apply rotation_rotz).
  apply (proj2 (C05_invert_exact_iff A O Hs)).
  apply commutes_mat. rewrite HO. apply rotz_comm.
Qed.
Example C05_invert_z_aligned_example :
  let A := mkG (V 1 2 3) (rotz 1) 2 (1 / 2) in
  apply_gear_transform (apply_gear_transform (V 4 5 6) A) (g_invert A) = V 4 5 6.
Proof. intros A. apply (C05_invert_z_aligned A 1); [reflexivity|cbn; lra]. Qed.

Theorem C05_invert_refuted : exists A p, rotation (g_orient A) /\ g_scale A <> 0 /\
  apply_gear_transform (apply_gear_transform p A) (g_invert A) <> p.
Proof.
  exists (mkG ORIGIN (rotx (PI / 2)) 1 (PI / 2)), OUT. cbn [g_orient g_scale].
  split; [apply rotation_rotx|]. split; [lra|].
  rewrite g_invert_apply, apply_gear_transform_eq by (cbn; lra).
  cbn [g_orient g_scale g_center g_angle]. vec_simpl.
  rewrite cos_neg, sin_neg, cos_PI2, sin_PI2. intros H. injection H. lra.
Qed.

(** ** C06 *)
(** 4x4 matrix times homogeneous column, as arithmetic on the 16 entries. *)
Definition spec_homogeneous (A : affine) (p : vec) (w : R) : vec * R :=
  let '(r1, r2, r3, r4) := a_row A in
  let L := a_lin A in let c := a_tr A in
  (V (m11 L * vx p + m12 L * vy p + m13 L * vz p + vx c * w)
     (m21 L * vx p + m22 L * vy p + m23 L * vz p + vy c * w)
     (m31 L * vx p + m32 L * vy p + m33 L * vz p + vz c * w),
   r1 * vx p + r2 * vy p + r3 * vz p + r4 * w).

Theorem C06_affine_matrix T p :
  spec_homogeneous (t_affine T) p 1 = (apply_transform p T, 1).
Proof.
  rewrite apply_transform_eq. unfold spec_homogeneous, t_affine. cbn [a_row a_lin a_tr].
  f_equal; [|ring]. destruct T as [c A s], c, A, p. vec_simpl. cbn. apply vec_eq; cbn; ring.
Qed.

Theorem C06_gear_affine_matrix T p :
  spec_homogeneous (g_affine T) p 1 = (apply_gear_transform p T, 1).
Proof.
  rewrite apply_gear_transform_eq. unfold spec_homogeneous, g_affine. cbn [a_row a_lin a_tr].
  f_equal; [|ring]. destruct T as [c A s a], c, A, p. vec_simpl. cbn. apply vec_eq; cbn; ring.
Qed.

(** ** C07 *)
Theorem C07_transform_scales_distances T p q : orthogonal (t_orient T) ->
  norm (vsub (apply_transform p T) (apply_transform q T)) = Rabs (t_scale T) * norm (vsub p q).
Proof.
  intros HO. rewrite !apply_transform_eq.
  rewrite <- (orthogonal_norm (t_orient T) (vsub p q) HO), <- norm_smul, mapp_vsub.
  f_equal. destruct T as [c A s]. cbn [t_orient t_scale t_center].
  destruct (mapp A p), (mapp A q). vec_ring.
Qed.
Example C07_transform_scales_distances_example :
  let T := mkT (V 1 2 3) (rotx 1) (-2) in
  norm (vsub (apply_transform (V 1 0 0) T) (apply_transform ORIGIN T)) = Rabs (-2) * norm (vsub (V 1 0 0) ORIGIN).
Proof. intros T. apply (C07_transform_scales_distances T). apply (proj1 (rotation_rotx 1)). Qed.

Lemma g_orient_turn_orthogonal T : orthogonal (g_orient T) ->
  orthogonal (mmul (g_orient T) (rotz (g_angle T))).
Proof. intros HO. apply orthogonal_mmul; [exact HO|apply rotation_rotz]. Qed.

Lemma gear_diff T p q :
  vsub (apply_gear_transform p T) (apply_gear_transform q T) =
  smul (g_scale T) (mapp (mmul (g_orient T) (rotz (g_angle T))) (vsub p q)).
Proof.
  rewrite !apply_gear_transform_eq. destruct T as [c A s a]. cbn [g_orient g_scale g_center g_angle].
  rewrite mapp_mmul, !mapp_vsub. destruct (mapp A (mapp (rotz a) p)), (mapp A (mapp (rotz a) q)).
  vec_ring.
Qed.

Theorem C07_gear_transform_scales_distances T p q : orthogonal (g_orient T) ->
  norm (vsub (apply_gear_transform p T) (apply_gear_transform q T)) =
  Rabs (g_scale T) * norm (vsub p q).
Proof.
  intros HO. rewrite gear_diff, norm_smul.
  rewrite orthogonal_norm by (apply g_orient_turn_orthogonal, HO). reflexivity.
Qed.

(** Angles: scalar products of displacement vectors are scaled by scale^2. *)
Theorem C07_gear_transform_preserves_angles T p q r : orthogonal (g_orient T) ->
  dot (vsub (apply_gear_transform p T) (apply_gear_transform r T))
      (vsub (apply_gear_transform q T) (apply_gear_transform r T)) =
  g_scale T * g_scale T * dot (vsub p r) (vsub q r).
Proof.
  intros HO. rewrite !gear_diff, dot_smul_l, dot_smul_r.
  rewrite orthogonal_dot by (apply g_orient_turn_orthogonal, HO). ring.
Qed.
Example C07_gear_transform_preserves_angles_example :
  let T := mkG (V 1 2 3) (rotx 1) 2 (1 / 2) in
  dot (vsub (apply_gear_transform RIGHT T) (apply_gear_transform ORIGIN T))
      (vsub (apply_gear_transform UP T) (apply_gear_transform ORIGIN T))
  = 2 * 2 * dot (vsub RIGHT ORIGIN) (vsub UP ORIGIN).
Proof. intros T. apply (C07_gear_transform_preserves_angles T). apply (proj1 (rotation_rotx 1)). Qed.

(** The axis: points of the local z axis land on the line through the centre along z_axis,
    whatever the gear angle; x/y axes are images of the unit vectors for angle 0. *)
Theorem C07_axis_independent_of_angle T h :
  apply_gear_transform (V 0 0 h) T = vadd (g_center T) (smul (g_scale T * h) (g_z_axis T)).
Proof.
  rewrite apply_gear_transform_eq. destruct T as [c A s a]. unfold g_z_axis.
  destruct c, A. vec_simpl. cbn. apply vec_eq; cbn; ring.
Qed.

Theorem C07_axes_are_images T h :
  apply_transform (V h 0 0) T = vadd (t_center T) (smul (t_scale T * h) (t_x_axis T)) /\
  apply_transform (V 0 h 0) T = vadd (t_center T) (smul (t_scale T * h) (t_y_axis T)) /\
  apply_transform (V 0 0 h) T = vadd (t_center T) (smul (t_scale T * h) (t_z_axis T)).
Proof.
  rewrite !apply_transform_eq. destruct T as [c A s]. unfold t_x_axis, t_y_axis, t_z_axis.
  destruct c, A. vec_simpl. cbn. repeat split; apply vec_eq; cbn; ring.
Qed.

Theorem C07_gear_axes_are_images T h : g_angle T = 0 ->
  apply_gear_transform (V h 0 0) T = vadd (g_center T) (smul (g_scale T * h) (g_x_axis T)) /\
  apply_gear_transform (V 0 h 0) T = vadd (g_center T) (smul (g_scale T * h) (g_y_axis T)).
Proof.
  intros H. rewrite !apply_gear_transform_eq, H, rotz_0. destruct T as [c A s a].
  unfold g_x_axis, g_y_axis. destruct c, A. vec_simpl. cbn.
  repeat split; apply vec_eq; cbn; ring.
Qed.
Example C07_gear_axes_are_images_example :
  let T := mkG (V 1 2 3) (rotx 1) 2 0 in
  apply_gear_transform (V 5 0 0) T = vadd (V 1 2 3) (smul (2 * 5) (g_x_axis T))
  /\ apply_gear_transform (V 0 5 0) T = vadd (V 1 2 3) (smul (2 * 5) (g_y_axis T)).
Proof. intros T. apply (C07_gear_axes_are_images T 5). reflexivity. Qed.

Example C07_example :
  let T := mkG (V 1 2 3) (rotx 1) 2 (1/2) in
  norm (vsub (apply_gear_transform RIGHT T) (apply_gear_transform ORIGIN T)) = 2.
Proof.
  intros T. rewrite C07_gear_transform_scales_distances by apply rotation_rotx.
  unfold T. cbn [g_scale]. rewrite vsub_0_r, Rabs_right by lra.
  replace (norm RIGHT) with 1; [lra|]. symmetry. apply norm_eq; [lra|vec_simpl; ring].
Qed.
