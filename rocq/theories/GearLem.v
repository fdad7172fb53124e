(** Lemmas on the involute function, angles modulo full turns and plane frames. *)
From Coq Require Import Nsatz Reals Ranalysis5 Lra Psatz Lia ZArith.
From Verif Require Import Num Vec Transform TransformProps Coords.
Open Scope R_scope.

(** ** The involute function inv a = tan a - a *)
Definition inv (a : R) : R := tan a - a.

Lemma cos_pos_in a : - PI / 2 < a < PI / 2 -> 0 < cos a.
Proof. intros. apply cos_gt_0; lra. Qed.

Lemma derivable_inv a : - PI / 2 < a < PI / 2 -> derivable_pt_lim inv a (tan a ^ 2).
Proof.
  intros H. pose proof (cos_pos_in a H) as C.
  assert (T : derivable_pt_lim tan a (1 + tan a ^ 2)).
  { pose proof (derive_pt_tan a H) as D.
    destruct (derivable_pt_tan a H) as [l Hl]. unfold derive_pt in D. simpl in D.
    unfold derivable_pt_abs in Hl. replace (1 + tan a ^ 2) with l by (rewrite D; ring). exact Hl. }
  replace (tan a ^ 2) with (1 + tan a ^ 2 - 1) by ring.
  apply (derivable_pt_lim_minus tan id); [exact T|apply derivable_pt_lim_id].
Qed.

Lemma inv_mvt a b : - PI / 2 < a -> a < b -> b < PI / 2 ->
  exists c, a < c < b /\ inv b - inv a = tan c ^ 2 * (b - a).
Proof.
  intros Ha Hab Hb.
  destruct (MVT_cor2 inv (fun c => tan c ^ 2) a b Hab) as (c & E & Hc).
  { intros c Hc. apply derivable_inv. lra. }
  exists c. split; [exact Hc|exact E].
Qed.

Lemma tan_zero c : - PI / 2 < c < PI / 2 -> tan c = 0 -> c = 0.
Proof.
  intros H E. apply tan_inj; [|lra|rewrite E; symmetry; apply tan_0].
  lra.
Qed.

Lemma inv_mono a b : - PI / 2 < a -> a <= b -> b < PI / 2 -> inv a <= inv b.
Proof.
  intros Ha Hab Hb. destruct (Req_dec a b) as [->|N]; [lra|].
  destruct (inv_mvt a b) as (c & Hc & E); [lra..|]. nra.
Qed.

Lemma inv_strict a b : - PI / 2 < a -> a < b -> b < PI / 2 -> inv a < inv b.
Proof.
  intros Ha Hab Hb. destruct (Rle_lt_dec (inv b) (inv a)) as [L|L]; [exfalso|exact L].
  pose proof (inv_mono a ((a + b) / 2)). pose proof (inv_mono ((a + b) / 2) b).
  destruct (inv_mvt a ((a + b) / 2)) as (c1 & Hc1 & E1); [lra..|].
  destruct (inv_mvt ((a + b) / 2) b) as (c2 & Hc2 & E2); [lra..|].
  assert (inv ((a + b) / 2) = inv a) by lra. assert (inv b = inv ((a + b) / 2)) by lra.
  assert (Z1 : tan c1 ^ 2 = 0) by nra. assert (Z2 : tan c2 ^ 2 = 0) by nra.
  apply (f_equal sqrt) in Z1, Z2.
  assert (tan c1 = 0) by (destruct (Req_dec (tan c1) 0); [assumption|]; exfalso;
    rewrite sqrt_0, <- Rsqr_pow2, sqrt_Rsqr_abs in Z1; apply Rabs_no_R0 in H3; lra).
  assert (tan c2 = 0) by (destruct (Req_dec (tan c2) 0); [assumption|]; exfalso;
    rewrite sqrt_0, <- Rsqr_pow2, sqrt_Rsqr_abs in Z2; apply Rabs_no_R0 in H4; lra).
  apply tan_zero in H3; [|lra]. apply tan_zero in H4; [|lra]. lra.
Qed.

Lemma inv_inj a b : - PI / 2 < a < PI / 2 -> - PI / 2 < b < PI / 2 -> inv a = inv b -> a = b.
Proof.
  intros Ha Hb E. destruct (Rtotal_order a b) as [L|[L|L]]; [|exact L|].
  - pose proof (inv_strict a b). lra.
  - pose proof (inv_strict b a). lra.
Qed.

Lemma inv_0 : inv 0 = 0.
Proof. unfold inv. rewrite tan_0. ring. Qed.
Lemma inv_neg a : inv (- a) = - inv a.
Proof. unfold inv. rewrite tan_neg. ring. Qed.
Lemma inv_abs a : inv (Rabs a) = sign a * inv a.
Proof.
  destruct (Rtotal_order a 0) as [L|[->|L]].
  - rewrite Rabs_left, sign_neg, inv_neg by lra. ring.
  - rewrite Rabs_R0, sign_0, inv_0. ring.
  - rewrite Rabs_right, sign_pos by lra. ring.
Qed.
Lemma inv_pos a : 0 < a < PI / 2 -> 0 < inv a.
Proof. intros H. pose proof (inv_strict 0 a). rewrite inv_0 in *. lra. Qed.
Lemma inv_sign a : - PI / 2 < a < PI / 2 -> 0 <= inv a -> 0 <= a.
Proof.
  intros H I. destruct (Rle_lt_dec 0 a) as [L|L]; [exact L|exfalso].
  pose proof (inv_strict a 0). rewrite inv_0 in *. lra.
Qed.

Lemma inv_cont a : - PI / 2 < a < PI / 2 -> continuity_pt inv a.
Proof.
  intros H. apply derivable_continuous_pt. exists (tan a ^ 2). apply derivable_inv, H.
Qed.

(** Every value is taken: the solver's equation always has a root in (-pi/2, pi/2). *)
Lemma inv_surj_nonneg c : 0 <= c -> exists a, 0 <= a < PI / 2 /\ inv a = c.
Proof.
  intros Hc. pose proof PI_RGT_0.
  destruct (Req_dec c 0) as [->|N]. { exists 0. rewrite inv_0. lra. }
  set (b := atan (c + PI)). pose proof (atan_bound (c + PI)) as B. fold b in B.
  assert (B0 : 0 < b) by (rewrite <- atan_0; apply atan_increasing; lra).
  assert (Ib : c < inv b) by (unfold inv; unfold b at 1; rewrite tan_atan; lra).
  destruct (IVT_interv (fun x => inv x - c) 0 b) as (a & Ha & E).
  - intros x Hx. apply continuity_pt_minus; [apply inv_cont; lra|].
    apply continuity_pt_const. intros ? ?. reflexivity.
  - exact B0.
  - rewrite inv_0. lra.
  - lra.
  - exists a. split; [lra|]. lra.
Qed.
Lemma inv_surj c : exists a, - PI / 2 < a < PI / 2 /\ inv a = c.
Proof.
  pose proof PI_RGT_0.
  destruct (Rle_dec 0 c) as [L|L].
  - destruct (inv_surj_nonneg c L) as (a & Ha & E). exists a. split; [lra|exact E].
  - destruct (inv_surj_nonneg (- c)) as (a & Ha & E); [lra|]. exists (- a).
    rewrite inv_neg. split; lra.
Qed.

(** ** Angles modulo full turns *)
Lemma angle_mod a b : cos a = cos b -> sin a = sin b -> exists k : Z, a = b + 2 * IZR k * PI.
Proof.
  intros C S.
  assert (E : cos (a - b) = 1) by (rewrite cos_minus, C, S; pose proof (sc1 b); lra).
  replace (a - b) with (2 * ((a - b) / 2)) in E by field.
  rewrite cos_2a_sin in E.
  assert (Z : sin ((a - b) / 2) = 0) by nra.
  apply sin_eq_0_0 in Z. destruct Z as [k Hk]. exists k. lra.
Qed.

Lemma angle_xy_cos_sin v r a : 0 < r -> vx v = r * cos a -> vy v = r * sin a ->
  exists k : Z, angle_xy v = a + 2 * IZR k * PI.
Proof.
  intros Hr X Y. unfold angle_xy. rewrite X, Y.
  destruct (arctan2_cos_sin (r * sin a) (r * cos a)) as [C S].
  replace (r * cos a * (r * cos a) + r * sin a * (r * sin a)) with (r * r) in C, S
    by (pose proof (sc1 a); nra).
  rewrite sqrt_square in C, S by lra.
  apply angle_mod; apply (Rmult_eq_reg_l r); lra.
Qed.

(** ** Directions in the plane of a gear: e(a) and its derivative *)
Definition dir (O : mat) (a : R) : vec := mapp O (V (cos a) (sin a) 0).
Definition dir' (O : mat) (a : R) : vec := mapp O (V (- sin a) (cos a) 0).

Lemma dir_dot O a : orthogonal O -> dot (dir O a) (dir O a) = 1.
Proof. intros H. unfold dir. rewrite orthogonal_dot by exact H. vec_simpl. pose proof (sc1 a). lra. Qed.
Lemma dir'_dot O a : orthogonal O -> dot (dir' O a) (dir' O a) = 1.
Proof. intros H. unfold dir'. rewrite orthogonal_dot by exact H. vec_simpl. pose proof (sc1 a). lra. Qed.
Lemma dir_dir'_dot O a : orthogonal O -> dot (dir O a) (dir' O a) = 0.
Proof. intros H. unfold dir, dir'. rewrite orthogonal_dot by exact H. vec_simpl. ring. Qed.
Lemma dir_plus O a b : dir O (a + b) = vadd (smul (cos b) (dir O a)) (smul (sin b) (dir' O a)).
Proof. unfold dir, dir'. rewrite cos_plus, sin_plus. vec_ring. Qed.
Lemma dir'_plus O a b : dir' O (a + b) = vsub (smul (cos b) (dir' O a)) (smul (sin b) (dir O a)).
Proof. unfold dir, dir'. rewrite cos_plus, sin_plus. vec_ring. Qed.
Lemma dir_turn O a k : dir O (a + 2 * IZR k * PI) = dir O a.
Proof. unfold dir. rewrite cos_Zperiod, sin_Zperiod. reflexivity. Qed.
Lemma dir'_turn O a k : dir' O (a + 2 * IZR k * PI) = dir' O a.
Proof. unfold dir'. rewrite cos_Zperiod, sin_Zperiod. reflexivity. Qed.
Lemma dir_pi O a : dir O (a + PI) = vopp (dir O a).
Proof. unfold dir. rewrite neg_cos, neg_sin. vec_ring. Qed.
Lemma dir'_pi O a : dir' O (a + PI) = vopp (dir' O a).
Proof. unfold dir'. rewrite neg_cos, neg_sin. vec_ring. Qed.
Lemma dir_z O a : orthogonal O -> dot (dir O a) (col3 O) = 0.
Proof.
  intros H. replace (col3 O) with (mapp O OUT) by vec_ring. unfold dir.
  rewrite orthogonal_dot by exact H. vec_simpl. ring.
Qed.

(** A direction perpendicular to the axis is [dir] of its angle in the gear's frame. *)
Lemma dir_of_plane O u : orthogonal O -> dot u (col3 O) = 0 ->
  u = smul (norm u) (dir O (angle_xy (vmat u O))).
Proof.
  intros HO Hz. set (w := vmat u O).
  assert (W : u = mapp O w) by (unfold w, vmat; rewrite orthogonal_inv_r; auto).
  assert (Wz : vz w = 0).
  { replace (vz w) with (dot u (col3 O)); [exact Hz|]. unfold w. vec_ring. }
  destruct (arctan2_cos_sin (vy w) (vx w)) as [C S].
  assert (N : norm u = sqrt (vx w * vx w + vy w * vy w)).
  { rewrite W, orthogonal_norm by exact HO. unfold norm. f_equal. unfold dot. rewrite Wz. ring. }
  rewrite <- N in C, S. fold (angle_xy w) in C, S.
  unfold dir. rewrite <- mapp_smul. rewrite W at 1. f_equal.
  apply vec_eq; cbn [smul vx vy vz]; [lra|lra|rewrite Wz; ring].
Qed.

Lemma angle_xy_dir O a r : orthogonal O -> 0 < r ->
  exists k : Z, angle_xy (vmat (smul r (dir O a)) O) = a + 2 * IZR k * PI.
Proof.
  intros HO Hr. apply (angle_xy_cos_sin _ r a Hr).
  - unfold vmat, dir. rewrite <- mapp_smul, orthogonal_inv_l by exact HO. reflexivity.
  - unfold vmat, dir. rewrite <- mapp_smul, orthogonal_inv_l by exact HO. reflexivity.
Qed.

Lemma norm_unit v : dot v v = 1 -> norm v = 1.
Proof. intros H. apply norm_eq; [lra|lra]. Qed.
Lemma norm_dir O a : orthogonal O -> norm (dir O a) = 1.
Proof. intros. apply norm_unit, dir_dot. assumption. Qed.
Lemma normalize_smul k v : 0 < k -> norm v = 1 -> normalize (smul k v) = v.
Proof.
  intros Hk Hv. unfold normalize. rewrite norm_smul, Hv, Rabs_right, smul_smul by lra.
  replace (/ (k * 1) * k) with 1 by (field; lra). apply smul_1.
Qed.
