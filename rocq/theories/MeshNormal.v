(** The tangent of an involute flank is perpendicular to the string (for C45). *)
From Coq Require Import Nsatz Reals Lra Psatz Lia ZArith.
From Coquelicot Require Import Coquelicot.
From Verif Require Import Num Vec Transform TransformProps Coords Gen GearMath GearLem MeshAngleProps MeshLem.
Open Scope R_scope.

(** The curve [f] is perpendicular to [n] at the parameter [t]: its coordinate along [n] is
    stationary there. Specification only, no code. *)
Definition normal_to (f : R -> vec) (n : vec) (t : R) : Prop :=
  derivable_pt_lim (fun u => dot (f u) n) t 0.

Lemma dir_dir'_angle O a b : orthogonal O -> dot (dir O a) (dir' O b) = sin (a - b).
Proof. intros H. unfold dir, dir'. rewrite orthogonal_dot by exact H. vec_simpl. rewrite sin_minus. ring. Qed.
Lemma dir'_dir'_angle O a b : orthogonal O -> dot (dir' O a) (dir' O b) = cos (a - b).
Proof. intros H. unfold dir, dir'. rewrite orthogonal_dot by exact H. vec_simpl. rewrite cos_minus. ring. Qed.

Lemma deriv_lower (c r w t : R) : sin (w + t) = 0 ->
  derivable_pt_lim (fun u : R => c + r * (sin (w + u) - u * cos (w + u))) t 0.
Proof.
  intros H. apply is_derive_Reals. auto_derive; [exact I|]. rewrite H. ring.
Qed.
Lemma deriv_upper (c r w t : R) : sin (w - t) = 0 ->
  derivable_pt_lim (fun u : R => c + r * (sin (w - u) + u * cos (w - u))) t 0.
Proof.
  intros H. apply is_derive_Reals. auto_derive; [exact I|].
  replace (w + - t) with (w - t) by ring. rewrite H. ring.
Qed.

Lemma deriv_ext (f g : R -> R) t l : (forall u, f u = g u) -> derivable_pt_lim f t l -> derivable_pt_lim g t l.
Proof.
  intros E H. apply is_derive_Reals. apply is_derive_Reals in H.
  apply (is_derive_ext f g t l); [intros; apply E|exact H].
Qed.

Lemma lower_flank_normal T n r A k t X : orthogonal (g_orient T) ->
  sin (g_angle T + IZR k * (2 * PI / IZR n) - A + t - X) = 0 ->
  normal_to (lower_flank T n r A k) (dir' (g_orient T) X) t.
Proof.
  intros HO HS. set (w := g_angle T + IZR k * (2 * PI / IZR n) - A - X).
  apply (deriv_ext (fun u : R => dot (g_center T) (dir' (g_orient T) X) + g_scale T * r * (sin (w + u) - u * cos (w + u)))).
  - intros u. rewrite lower_flank_eq. cbn zeta.
    set (tau := g_angle T + IZR k * (2 * PI / IZR n) - A + u).
    replace (w + u) with (tau - X) by (unfold w, tau; lra).
    rewrite <- (dir_dir'_angle _ tau X HO), <- (dir'_dir'_angle _ tau X HO).
    set (p := dir _ tau). set (q := dir' _ tau). set (n' := dir' _ X). destruct p, q, n', (g_center T).
    vec_simpl. ring.
  - apply deriv_lower. rewrite <- HS. f_equal. unfold w. ring.
Qed.

Lemma upper_flank_normal T n r A k t X : orthogonal (g_orient T) ->
  sin (g_angle T + IZR k * (2 * PI / IZR n) + A - t - X) = 0 ->
  normal_to (upper_flank T n r A k) (dir' (g_orient T) X) t.
Proof.
  intros HO HS. set (w := g_angle T + IZR k * (2 * PI / IZR n) + A - X).
  apply (deriv_ext (fun u : R => dot (g_center T) (dir' (g_orient T) X) + g_scale T * r * (sin (w - u) + u * cos (w - u)))).
  - intros u. rewrite upper_flank_eq. cbn zeta.
    set (tau := g_angle T + IZR k * (2 * PI / IZR n) + A - u).
    replace (w - u) with (tau - X) by (unfold w, tau; lra).
    rewrite <- (dir_dir'_angle _ tau X HO), <- (dir'_dir'_angle _ tau X HO).
    set (p := dir _ tau). set (q := dir' _ tau). set (n' := dir' _ X). destruct p, q, n', (g_center T).
    vec_simpl. ring.
  - apply deriv_upper. rewrite <- HS. f_equal. unfold w. ring.
Qed.
