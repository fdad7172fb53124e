(** Properties C15-C17 and C20-C22: Bezier and rational Bezier curves and surfaces. *)
From Coq Require Import Nsatz Reals Lra Psatz Lia List.
From Verif Require Import Num Vec Coords CoordsProps Bezier BezierLem.
Import ListNotations.
Open Scope R_scope.

Lemma len_S {A} (l : list A) : l <> [] -> exists d, length l = S d.
Proof. destruct l; [contradiction|]. intros. eexists. reflexivity. Qed.

Lemma map_nil {A B} (f : A -> B) l : l <> [] -> map f l <> [].
Proof. destruct l; [contradiction|discriminate]. Qed.

(** ** C15 *)
Theorem C15_decasteljau_is_bernstein_weights t (l : list R) : l <> [] ->
  bezierdc t l = bezier t l.
Proof.
  intros N. destruct (len_S l N) as [d E]. rewrite (bezierdc_sum t l d E), (bezier_sum t l d E).
  reflexivity.
Qed.
Example C15_decasteljau_is_bernstein_weights_example : bezierdc 2 [1; 1 / 2; 3] = bezier 2 [1; 1 / 2; 3].
Proof. apply C15_decasteljau_is_bernstein_weights. discriminate. Qed.

Theorem C15_decasteljau_is_bernstein t (l : list vec) : l <> [] ->
  bezierdc t l = bezier t l.
Proof.
  intros N. rewrite bezierdc_coords, bezier_coords by assumption.
  rewrite !C15_decasteljau_is_bernstein_weights by (apply map_nil; assumption). reflexivity.
Qed.

(** Independent check of the meaning: the cubic written out. *)
Theorem C15_cubic_written_out t (a b c d : R) :
  bezierdc t [a; b; c; d] =
  (1-t)*(1-t)*(1-t)*a + 3*t*(1-t)*(1-t)*b + 3*t*t*(1-t)*c + t*t*t*d.
Proof. unfold bezierdc. cbn. unfold lerp2. cbn. ring. Qed.

Example C15_example : bezierdc 2 [V 0 0 0; V 1 2 0; V 3 0 1] = bezier 2 [V 0 0 0; V 1 2 0; V 3 0 1].
Proof. apply C15_decasteljau_is_bernstein. discriminate. Qed.

(** ** C16 *)
Lemma dc_step_0 (l : list R) : dc_step 0 l = removelast l.
Proof.
  induction l as [|a [|b r] IH]; try reflexivity. cbn [dc_step removelast] in *. rewrite IH.
  f_equal. unfold lerp2. cbn. ring.
Qed.
Lemma dc_step_1 (l : list R) : dc_step 1 l = tl l.
Proof.
  induction l as [|a [|b r] IH]; try reflexivity. cbn [dc_step tl] in *. rewrite IH.
  unfold lerp2. cbn [ladd lsc Lin_R]. replace ((1 - 1) * a + 1 * b) with b by ring.
  destruct r; reflexivity.
Qed.

Lemma bern_00 d : bern d 0 0 = 1.
Proof. unfold bern. rewrite binom_0, Rminus_0_r, pow1. cbn. ring. Qed.
Lemma bern_k0 d k : (0 < k)%nat -> bern d k 0 = 0.
Proof. intros. unfold bern. rewrite pow_i by assumption. ring. Qed.
Lemma bern_d1 d : bern d d 1 = 1.
Proof. unfold bern. rewrite binom_n, Nat.sub_diag, pow1. cbn. ring. Qed.
Lemma bern_k1 d k : (k < d)%nat -> bern d k 1 = 0.
Proof. intros. unfold bern. rewrite Rminus_diag_eq by reflexivity. rewrite (pow_i (d - k)) by lia. ring. Qed.

Lemma sum_f_0 n f : (forall k, (k <= n)%nat -> f k = 0) -> sum_f_R0 f n = 0.
Proof. intros E. induction n; cbn; [apply E; lia|]. rewrite IHn, E by (intros; try apply E; lia). ring. Qed.

Lemma last_nth' {A} (l : list A) k d : length l = S k -> nth k l d = last l d.
Proof.
  revert k; induction l as [|a [|b r] IH]; intros k Ek; cbn in Ek; [lia| |].
  - replace k with 0%nat by lia. reflexivity.
  - destruct k; [lia|]. change (nth (S k) (a :: b :: r) d) with (nth k (b :: r) d). rewrite IH by (cbn; lia). reflexivity.
Qed.

Lemma bezierdc_R_0 (l : list R) : l <> [] -> bezierdc 0 l = hd 0 l.
Proof.
  intros N. destruct (len_S l N) as [d E]. rewrite (bezierdc_sum 0 l d E).
  destruct d.
  - cbn. rewrite bern_00. destruct l; cbn; ring.
  - rewrite sum_f_shift, bern_00, sum_f_0.
    + destruct l; cbn; ring.
    + intros. rewrite bern_k0 by lia. ring.
Qed.

Lemma bezierdc_R_1 (l : list R) : l <> [] -> bezierdc 1 l = last l 0.
Proof.
  intros N. destruct (len_S l N) as [d E]. rewrite (bezierdc_sum 1 l d E).
  destruct d; cbn [sum_f_R0].
  - rewrite bern_d1, (last_nth' l 0%nat 0 E). ring.
  - rewrite bern_d1, sum_f_0, (last_nth' l _ 0 E).
    + ring.
    + intros. rewrite bern_k1 by lia. ring.
Qed.

Lemma hd_map {A B} (f : A -> B) l d : f d = f d -> hd (f d) (map f l) = f (hd d l).
Proof. destruct l; reflexivity. Qed.
Lemma last_map {A B} (f : A -> B) l d : last (map f l) (f d) = f (last l d).
Proof. induction l as [|a [|b r] IH]; try reflexivity. cbn [map last] in *. exact IH. Qed.

Theorem C16_starts_at_first (l : list vec) : l <> [] -> bezierdc 0 l = hd ORIGIN l.
Proof.
  intros N. rewrite bezierdc_coords by assumption.
  rewrite !bezierdc_R_0 by (apply map_nil; assumption). destruct l as [|[x y z] l]; [contradiction|reflexivity].
Qed.
Example C16_starts_at_first_example : bezierdc 0 [V 0 0 0; V 1 2 0; V 3 0 1] = V 0 0 0.
Proof. apply (C16_starts_at_first [V 0 0 0; V 1 2 0; V 3 0 1]). discriminate. Qed.

Theorem C16_ends_at_last (l : list vec) : l <> [] -> bezierdc 1 l = last l ORIGIN.
Proof.
  intros N. rewrite bezierdc_coords by assumption.
  rewrite !bezierdc_R_1 by (apply map_nil; assumption).
  rewrite (last_map vx l ORIGIN : last (map vx l) 0 = _), (last_map vy l ORIGIN : last (map vy l) 0 = _),
    (last_map vz l ORIGIN : last (map vz l) 0 = _).
  destruct (last l ORIGIN). reflexivity.
Qed.
Example C16_ends_at_last_example : bezierdc 1 [V 0 0 0; V 1 2 0; V 3 0 1] = V 3 0 1.
Proof. apply (C16_ends_at_last [V 0 0 0; V 1 2 0; V 3 0 1]). discriminate. Qed.

Lemma bezierdc_Forall {A} `{Lin A} (P : A -> Prop) t l : l <> [] ->
  (forall a b, P a -> P b -> P (lerp2 t a b)) -> Forall P l -> P (bezierdc t l).
Proof.
  intros N HP F. destruct (len_S l N) as [d E]. rewrite (bezierdc_dcf t l d E).
  assert (G : forall d f, (forall k, (k <= d)%nat -> P (f k)) -> P (dcf t d f)).
  { induction d0; intros f Hf; cbn; [apply Hf; lia|]. apply IHd0. intros. apply HP; apply Hf; lia. }
  apply G. intros k K. rewrite Forall_forall in F. apply F. apply nth_In. lia.
Qed.

(** The curve lies in every half space that contains the control points (convex hull; with
    axis directions this is the control box). *)
Theorem C16_convex_hull t (l : list vec) n M : l <> [] -> 0 <= t <= 1 ->
  (forall p, In p l -> dot n p <= M) -> dot n (bezierdc t l) <= M.
Proof.
  intros N T F. apply (bezierdc_Forall (fun p => dot n p <= M)); [assumption| |].
  - intros a b Ha Hb. unfold lerp2. cbn [ladd lsc Lin_vec].
    replace (dot n (vadd (smul (1 - t) a) (smul t b))) with ((1 - t) * dot n a + t * dot n b) by vec_ring.
    nra.
  - apply Forall_forall. exact F.
Qed.

(** Affine maps (rotations, scalings, translations, projections). *)
Theorem C16_affine_invariance t (l : list vec) B c : l <> [] ->
  bezierdc t (map (fun p => vadd (mapp B p) c) l) = vadd (mapp B (bezierdc t l)) c.
Proof.
  intros N. apply (bezierdc_map (fun p => vadd (mapp B p) c)); [assumption|].
  intros a b. unfold lerp2. cbn [ladd lsc Lin_vec]. destruct B, a, b, c. vec_ring.
Qed.
Example C16_affine_invariance_example :
  bezierdc (1 / 3) (map (fun p => vadd (mapp (rotz 1) p) (V 1 1 1)) [V 0 0 0; V 1 2 0; V 3 0 1])
  = vadd (mapp (rotz 1) (bezierdc (1 / 3) [V 0 0 0; V 1 2 0; V 3 0 1])) (V 1 1 1).
Proof. apply C16_affine_invariance. discriminate. Qed.

Lemma dcf_rev (t : R) d (f : nat -> R) : dcf (1 - t) d (fun k => f (d - k)%nat) = dcf t d f.
Proof.
  revert f; induction d; intros f; [reflexivity|].
  cbn [dcf]. rewrite <- IHd. apply dcf_ext. intros k K.
  replace (S d - S k)%nat with (d - k)%nat by lia.
  replace (S d - k)%nat with (S (d - k)) by lia. unfold lerp2. cbn [ladd lsc Lin_R]. ring.
Qed.

Lemma bezierdc_R_rev t (l : list R) : l <> [] -> bezierdc t (rev l) = bezierdc (1 - t) l.
Proof.
  intros N. destruct (len_S l N) as [d E].
  rewrite (bezierdc_dcf t (rev l) d) by (rewrite rev_length; exact E).
  rewrite (bezierdc_dcf (1 - t) l d E). rewrite <- dcf_rev.
  replace (1 - (1 - t)) with t by ring. apply dcf_ext. intros k K.
  rewrite rev_nth by lia. f_equal. lia.
Qed.

Theorem C16_reversal t (l : list vec) : l <> [] -> bezierdc t (rev l) = bezierdc (1 - t) l.
Proof.
  intros N.
  assert (rev l <> []) by (intros E; apply N; rewrite <- (rev_involutive l), E; reflexivity).
  rewrite !bezierdc_coords by assumption. rewrite !map_rev.
  rewrite !bezierdc_R_rev by (apply map_nil; assumption). reflexivity.
Qed.
Example C16_reversal_example :
  bezierdc (1 / 3) [V 3 0 1; V 1 2 0; V 0 0 0] = bezierdc (1 - 1 / 3) [V 0 0 0; V 1 2 0; V 3 0 1].
Proof. apply (C16_reversal (1 / 3) [V 0 0 0; V 1 2 0; V 3 0 1]). discriminate. Qed.

(** The same for the Bernstein form [bezier]. *)
Theorem C16_bernstein_form (l : list vec) : l <> [] ->
  bezier 0 l = hd ORIGIN l /\ bezier 1 l = last l ORIGIN /\
  (forall t n M, 0 <= t <= 1 -> (forall p, In p l -> dot n p <= M) -> dot n (bezier t l) <= M) /\
  (forall t B c, bezier t (map (fun p => vadd (mapp B p) c) l) = vadd (mapp B (bezier t l)) c) /\
  (forall t, bezier t (rev l) = bezier (1 - t) l).
Proof.
  intros N.
  assert (NR : rev l <> []) by (intros E; apply N; rewrite <- (rev_involutive l), E; reflexivity).
  assert (NM : forall B c, map (fun p => vadd (mapp B p) c) l <> []) by (intros B c; destruct l; [contradiction|discriminate]).
  repeat split; intros; rewrite <- !C15_decasteljau_is_bernstein by auto.
  - apply C16_starts_at_first. assumption.
  - apply C16_ends_at_last. assumption.
  - apply C16_convex_hull; assumption.
  - apply C16_affine_invariance. assumption.
  - apply C16_reversal. assumption.
Qed.
Example C16_bernstein_form_example : bezier 1 [V 0 0 0; V 1 2 0; V 3 0 1] = V 3 0 1.
Proof.
  assert (N : [V 0 0 0; V 1 2 0; V 3 0 1] <> []) by discriminate.
  destruct (C16_bernstein_form _ N) as (_ & H & _). exact H.
Qed.

Example C16_example : dot UP (bezierdc (1/3) [V 0 0 0; V 1 2 0; V 3 0 1]) <= 2.
Proof.
  apply C16_convex_hull; [discriminate|lra|].
  intros p [<-|[<-|[<-|[]]]]; unfold dot, UP; cbn; lra.
Qed.

(** ** C17 *)
Lemma wpoints_length pts ws : length pts = length ws -> length (wpoints pts ws) = length pts.
Proof. revert ws; induction pts; intros [|w ws] E; cbn in *; try lia. rewrite IHpts; lia. Qed.

Lemma wpoints_nth pts ws k : length pts = length ws -> (k < length pts)%nat ->
  nth k (wpoints pts ws) ORIGIN = smul (nth k ws 0) (nth k pts ORIGIN).
Proof.
  revert ws k; induction pts; intros [|w ws] k E K; cbn in *; try lia.
  destruct k; [reflexivity|]. apply IHpts; lia.
Qed.

Lemma bezierdc_lin (phi : vec -> R) t (l : list vec) : l <> [] ->
  (forall a b, phi (vadd a b) = phi a + phi b) -> (forall c a, phi (smul c a) = c * phi a) ->
  phi (bezierdc t l) = bezierdc t (map phi l).
Proof.
  intros N HA HS. symmetry. apply bezierdc_map; [assumption|].
  intros. unfold lerp2. cbn [ladd lsc Lin_vec Lin_R]. rewrite HA, !HS. reflexivity.
Qed.

(** numerator of the rational curve as a Bernstein sum, seen through a linear functional *)
Lemma wbez_sum (phi : vec -> R) t pts ws d : length pts = S d -> length ws = S d ->
  (forall a b, phi (vadd a b) = phi a + phi b) -> (forall c a, phi (smul c a) = c * phi a) ->
  phi (bezierdc t (wpoints pts ws)) =
  sum_f_R0 (fun k => bern d k t * (nth k ws 0 * phi (nth k pts ORIGIN))) d.
Proof.
  intros E1 E2 HA HS.
  assert (L : length (wpoints pts ws) = S d) by (rewrite wpoints_length; lia).
  assert (N : wpoints pts ws <> []) by (intros E; rewrite E in L; discriminate).
  rewrite bezierdc_lin by assumption.
  rewrite (bezierdc_sum t _ d) by (rewrite map_length; exact L).
  apply sum_f_ext. intros k K. f_equal.
  assert (Z : phi ORIGIN = 0).
  { rewrite <- (smul_0 ORIGIN), HS. ring. }
  rewrite <- Z at 1. rewrite map_nth, wpoints_nth by lia. apply HS.
Qed.

Lemma bezierdc_pos t ws : 0 <= t <= 1 -> ws <> [] -> Forall (fun w => 0 < w) ws -> 0 < bezierdc t ws.
Proof.
  intros T N F. apply (bezierdc_Forall (fun w => 0 < w)); [assumption| |assumption].
  intros a b Ha Hb. unfold lerp2. cbn. nra.
Qed.

Lemma bern_nonneg d k t : 0 <= t <= 1 -> 0 <= bern d k t.
Proof.
  intros [H0 H1]. unfold bern. apply Rmult_le_pos; [apply Rmult_le_pos|].
  - apply pos_INR.
  - apply pow_le. assumption.
  - apply pow_le. lra.
Qed.

Lemma sum_f_nonneg n f : (forall k, (k <= n)%nat -> 0 <= f k) -> 0 <= sum_f_R0 f n.
Proof.
  intros E. induction n; cbn; [apply E; lia|].
  apply Rplus_le_le_0_compat; [apply IHn; intros; apply E; lia|apply E; lia].
Qed.

Lemma sum_f_opp n f : - sum_f_R0 f n = sum_f_R0 (fun k => - f k) n.
Proof. induction n; cbn; [reflexivity|]. rewrite <- IHn. ring. Qed.

Theorem C17_starts_at_first pts ws : length pts = length ws -> ws <> [] -> hd 0 ws <> 0 ->
  nurbezier 0 pts ws = hd ORIGIN pts.
Proof.
  intros E N W. destruct ws as [|w ws]; [contradiction|]. destruct pts as [|p pts]; [discriminate|].
  unfold nurbezier. rewrite bezierdc_R_0 by discriminate.
  rewrite C16_starts_at_first by discriminate. cbn in *. rewrite smul_smul, Rinv_l, smul_1 by assumption.
  reflexivity.
Qed.
Example C17_starts_at_first_example : nurbezier 0 [V 0 0 0; V 1 2 0; V 3 0 1] [2; -1; 1] = V 0 0 0.
Proof. apply (C17_starts_at_first [V 0 0 0; V 1 2 0; V 3 0 1]); [reflexivity|discriminate|cbn; lra]. Qed.

Theorem C17_ends_at_last pts ws : length pts = length ws -> ws <> [] -> last ws 0 <> 0 ->
  nurbezier 1 pts ws = last pts ORIGIN.
Proof.
  intros E N W. destruct (len_S ws N) as [d D].
  unfold nurbezier. rewrite bezierdc_R_1 by assumption.
  assert (L : length (wpoints pts ws) = S d) by (rewrite wpoints_length; lia).
  assert (N' : wpoints pts ws <> []) by (intros X; rewrite X in L; discriminate).
  rewrite C16_ends_at_last by assumption.
  rewrite <- (last_nth' _ d ORIGIN L), wpoints_nth by lia.
  rewrite (last_nth' ws d 0 D), (last_nth' pts d) by lia.
  rewrite smul_smul, Rinv_l, smul_1 by assumption. reflexivity.
Qed.
Example C17_ends_at_last_example : nurbezier 1 [V 0 0 0; V 1 2 0; V 3 0 1] [2; -1; 1] = V 3 0 1.
Proof. apply (C17_ends_at_last [V 0 0 0; V 1 2 0; V 3 0 1]); [reflexivity|discriminate|cbn; lra]. Qed.

Theorem C17_convex_hull t pts ws n M : length pts = length ws -> ws <> [] -> 0 <= t <= 1 ->
  Forall (fun w => 0 < w) ws -> (forall p, In p pts -> dot n p <= M) ->
  dot n (nurbezier t pts ws) <= M.
Proof.
  intros E N T W F. pose proof (bezierdc_pos t ws T N W) as WP.
  destruct (len_S ws N) as [d D].
  unfold nurbezier. rewrite dot_comm, dot_smul_l, dot_comm.
  apply Rmult_le_reg_l with (bezierdc t ws); [assumption|].
  rewrite <- Rmult_assoc, Rinv_r, Rmult_1_l by lra.
  rewrite (wbez_sum (dot n) t pts ws d) by (try lia; intros; vec_ring).
  rewrite (bezierdc_sum t ws d D). rewrite Rmult_comm, sum_f_scal.
  apply Rminus_le. apply Ropp_le_cancel. rewrite Ropp_0.
  replace (- (sum_f_R0 (fun k => bern d k t * (nth k ws 0 * dot n (nth k pts ORIGIN))) d -
     sum_f_R0 (fun k => M * (bern d k t * nth k ws 0)) d))
   with (sum_f_R0 (fun k => M * (bern d k t * nth k ws 0)) d
     + - sum_f_R0 (fun k => bern d k t * (nth k ws 0 * dot n (nth k pts ORIGIN))) d) by ring.
  rewrite sum_f_opp, sum_f_add. apply sum_f_nonneg. intros k K.
  pose proof (bern_nonneg d k t T).
  assert (dot n (nth k pts ORIGIN) <= M) by (apply F, nth_In; lia).
  assert (0 < nth k ws 0) by (rewrite Forall_forall in W; apply W, nth_In; lia).
  replace (M * (bern d k t * nth k ws 0) + - (bern d k t * (nth k ws 0 * dot n (nth k pts ORIGIN))))
    with (bern d k t * (nth k ws 0 * (M - dot n (nth k pts ORIGIN)))) by ring.
  apply Rmult_le_pos; [assumption|]. apply Rmult_le_pos; lra.
Qed.

Lemma wpoints_scale c pts ws :
  wpoints pts (map (Rmult c) ws) = map (smul c) (wpoints pts ws).
Proof.
  revert ws; induction pts; intros [|w ws]; cbn; try reflexivity.
  rewrite IHpts, smul_smul. reflexivity.
Qed.

Theorem C17_weight_scale_invariance t pts ws c : c <> 0 -> length pts = length ws -> ws <> [] ->
  nurbezier t pts (map (Rmult c) ws) = nurbezier t pts ws.
Proof.
  intros C E N. unfold nurbezier. rewrite wpoints_scale.
  rewrite (bezierdc_map (smul c)).
  - rewrite (bezierdc_map (Rmult c)).
    + rewrite smul_smul. destruct (Req_dec (bezierdc t ws) 0) as [Z|Z].
      * rewrite Z, Rmult_0_r, Rinv_0, Rmult_0_l. reflexivity.
      * f_equal. field. split; assumption.
    + assumption.
    + intros. unfold lerp2. cbn. ring.
  - destruct pts, ws; cbn in *; try discriminate. contradiction.
  - intros. unfold lerp2. cbn [ladd lsc Lin_vec]. vec_ring.
Qed.
Example C17_weight_scale_invariance_example :
  nurbezier (1 / 3) [V 0 0 0; V 1 2 0; V 3 0 1] (map (Rmult 5) [1; 1 / 2; 1])
  = nurbezier (1 / 3) [V 0 0 0; V 1 2 0; V 3 0 1] [1; 1 / 2; 1].
Proof. apply C17_weight_scale_invariance; [lra|reflexivity|discriminate]. Qed.

Lemma wpoints_const w pts : wpoints pts (repeat w (length pts)) = map (smul w) pts.
Proof. induction pts; cbn; [reflexivity|]. rewrite IHpts. reflexivity. Qed.

Lemma map_const_repeat (w : R) n : repeat w n = map (fun _ => w) (repeat w n).
Proof. induction n; cbn; [reflexivity|]. rewrite <- IHn. reflexivity. Qed.

Theorem C17_equal_weights t pts w : w <> 0 -> pts <> [] ->
  nurbezier t pts (repeat w (length pts)) = bezierdc t pts.
Proof.
  intros W N. unfold nurbezier. rewrite wpoints_const.
  rewrite (bezierdc_map (smul w)); [|assumption|intros; unfold lerp2; cbn [ladd lsc Lin_vec]; vec_ring].
  assert (R0 : repeat w (length pts) <> []) by (destruct pts; [contradiction|discriminate]).
  assert (B : bezierdc t (repeat w (length pts)) = w).
  { apply (bezierdc_Forall (fun x => x = w)); [assumption| |].
    - intros a b -> ->. unfold lerp2. cbn. ring.
    - apply Forall_forall. intros x. apply repeat_spec. }
  rewrite B, smul_smul, Rinv_l, smul_1 by assumption. reflexivity.
Qed.
Example C17_equal_weights_example :
  nurbezier (1 / 3) [V 0 0 0; V 1 2 0; V 3 0 1] [2; 2; 2] = bezierdc (1 / 3) [V 0 0 0; V 1 2 0; V 3 0 1].
Proof. apply (C17_equal_weights (1 / 3) [V 0 0 0; V 1 2 0; V 3 0 1] 2); [lra|discriminate]. Qed.

Example C17_example : dot UP (nurbezier (1/3) [V 0 0 0; V 1 2 0; V 3 0 1] [1; 1/2; 1]) <= 2.
Proof.
  apply C17_convex_hull; [reflexivity|discriminate|lra| |].
  - repeat constructor; lra.
  - intros p [<-|[<-|[<-|[]]]]; unfold dot, UP; cbn; lra.
Qed.

(** ** C20 *)
Lemma arc_denominator t C : 0 < C <= 1 -> 0 < (1 - t) * (1 - t) + 2 * t * (1 - t) * C + t * t.
Proof.
  intros. replace ((1 - t) * (1 - t) + 2 * t * (1 - t) * C + t * t)
    with ((1 + C) / 2 + 2 * (1 - C) * ((t - 1 / 2) * (t - 1 / 2))) by field.
  assert (0 <= (t - 1 / 2) * (t - 1 / 2)) by apply Rle_0_sqr.
  assert (0 <= 2 * (1 - C) * ((t - 1 / 2) * (t - 1 / 2))) by (apply Rmult_le_pos; lra). lra.
Qed.

(** The end points, equal radii and a non-straight, non-degenerate angle are the hypotheses. *)
Theorem C20_arc_exact p0 p2 c r t :
  0 < r -> norm (vsub p0 c) = r -> norm (vsub p2 c) = r ->
  vadd (vsub p0 c) (vsub p2 c) <> ORIGIN ->
  let (pts, ws) := calc_nurbezier_arc p0 p2 c in
  norm (vsub (nurbezier t pts ws) c) = r /\
  nurbezier 0 pts ws = p0 /\ nurbezier 1 pts ws = p2 /\
  (* the curve stays in the plane of the two radii, inside their sector for 0 <= t <= 1 *)
  exists al be, vsub (nurbezier t pts ws) c = vadd (smul al (vsub p0 c)) (smul be (vsub p2 c)) /\
     (0 <= t <= 1 -> 0 <= al /\ 0 <= be).
Proof.
  intros Hr N0 N2 NA. unfold calc_nurbezier_arc.
  set (a := vsub p0 c) in *. set (b := vsub p2 c) in *.
  set (h := angle_between a b / 2).
  destruct (C14_angle_cos_sin a b) as [CA _]. rewrite N0, N2 in CA.
  replace (angle_between a b) with (2 * h) in CA by (unfold h; field).
  rewrite cos_2a in CA. pose proof (sc1 h) as SC.
  assert (A2 : dot a a = r * r) by (rewrite <- norm_sqr, N0; reflexivity).
  assert (B2 : dot b b = r * r) by (rewrite <- norm_sqr, N2; reflexivity).
  assert (AB : dot a b = r * r * (2 * (cos h * cos h) - 1)) by (rewrite <- CA; nsatz).
  pose proof (C14_angle_range a b) as RG.
  assert (CN : 0 <= cos h) by (apply cos_ge_0; unfold h; lra).
  assert (SS : dot (vadd a b) (vadd a b) = 4 * (r * r) * (cos h * cos h)).
  { replace (dot (vadd a b) (vadd a b)) with (dot a a + 2 * dot a b + dot b b) by vec_ring. rewrite A2, B2, AB. ring. }
  assert (CP : 0 < cos h).
  { destruct CN as [CN|CN]; [assumption|]. exfalso. apply NA.
    assert (dot (vadd a b) (vadd a b) = 0) by (rewrite SS, <- CN; ring).
    revert H. generalize (vadd a b). intros [x y z]. unfold dot. cbn. intros.
    assert (x = 0) by nra. assert (y = 0) by nra. assert (z = 0) by nra. subst. reflexivity. }
  assert (C1 : cos h <= 1) by apply COS_bound.
  assert (PM : vsub (smul (/ 2) (vadd p0 p2)) c = smul (/ 2) (vadd a b)).
  { unfold a, b. destruct p0, p2, c. apply vec_eq; vec_simpl; field. }
  assert (NM : norm (smul (/ 2) (vadd a b)) = r * cos h).
  { apply norm_eq; [nra|].
    replace (dot (smul (/ 2) (vadd a b)) (smul (/ 2) (vadd a b)))
      with (/ 2 * / 2 * dot (vadd a b) (vadd a b)) by vec_ring.
    rewrite SS. field. }
  rewrite PM. unfold normalize. rewrite NM, N0, N2.
  set (p1 := vadd _ c).
  assert (P1 : vsub p1 c = smul (/ (2 * (cos h * cos h))) (vadd a b)).
  { assert (K : sin h * sin h / cos h + cos h = / cos h).
    { apply Rmult_eq_reg_r with (cos h); [|lra]. rewrite Rinv_l by lra.
      replace ((sin h * sin h / cos h + cos h) * cos h) with (sin h * sin h + cos h * cos h) by (field; lra).
      exact SC. }
    unfold p1. rewrite K. rewrite !smul_smul.
    replace ((r + r) / 2 * / cos h * / (r * cos h) * / 2) with (/ (2 * (cos h * cos h)))
      by (field; split; lra).
    apply vsub_vadd. }
  set (D := (1 - t) * (1 - t) + 2 * t * (1 - t) * cos h + t * t).
  assert (DP : 0 < D) by (apply arc_denominator; lra).
  assert (DE : bezierdc t [1; cos h; 1] = D).
  { unfold bezierdc, D. cbn. unfold lerp2. cbn. ring. }
  set (al := ((1 - t) * (1 - t) + t * (1 - t) / cos h) / D).
  set (be := (t * t + t * (1 - t) / cos h) / D).
  assert (EQ : vsub (nurbezier t [p0; p1; p2] [1; cos h; 1]) c = vadd (smul al a) (smul be b)).
  { unfold nurbezier. rewrite DE.
    assert (X0 : p0 = vadd a c) by (unfold a; rewrite vadd_vsub; reflexivity).
    assert (X2 : p2 = vadd b c) by (unfold b; rewrite vadd_vsub; reflexivity).
    assert (X1 : p1 = vadd (smul (/ (2 * (cos h * cos h))) (vadd a b)) c) by (rewrite <- P1, vadd_vsub; reflexivity).
    rewrite X0, X1, X2. clearbody a b p1. clear - DP CP. unfold bezierdc. cbn [wpoints length Nat.sub iter_step dc_step hd].
    unfold lerp2. cbn [ladd lsc Lin_vec]. unfold al, be. destruct a as [a1 a2 a3], b as [b1 b2 b3], c as [c1 c2 c3].
    apply vec_eq; vec_simpl; unfold D in *; field; split; lra. }
  split; [|split; [|split]].
  - rewrite EQ. apply norm_eq; [lra|].
    replace (dot (vadd (smul al a) (smul be b)) (vadd (smul al a) (smul be b)))
      with (al * al * dot a a + be * be * dot b b + 2 * al * be * dot a b) by vec_ring.
    rewrite A2, B2, AB. unfold al, be, D in *. field. split; lra.
  - apply C17_starts_at_first; [reflexivity|discriminate|cbn; lra].
  - apply C17_ends_at_last; [reflexivity|discriminate|cbn; lra].
  - exists al, be. split; [exact EQ|]. intros T. unfold al, be.
    assert (0 < / D) by (apply Rinv_0_lt_compat; assumption).
    assert (0 < / cos h) by (apply Rinv_0_lt_compat; assumption).
    unfold Rdiv. split; (apply Rmult_le_pos; [|lra]);
      (apply Rplus_le_le_0_compat; [nra|apply Rmult_le_pos; [nra|lra]]).
Qed.

Example C20_example : let (pts, ws) := calc_nurbezier_arc (V 1 0 0) (V 0 1 0) ORIGIN in
  norm (vsub (nurbezier (1/3) pts ws) ORIGIN) = 1.
Proof.
  pose proof (C20_arc_exact (V 1 0 0) (V 0 1 0) ORIGIN 1 (1/3)) as H.
  destruct (calc_nurbezier_arc (V 1 0 0) (V 0 1 0) ORIGIN). apply H; try lra.
  - apply norm_eq; [lra|]. vec_simpl. ring.
  - apply norm_eq; [lra|]. vec_simpl. ring.
  - intros E. apply (f_equal vx) in E. revert E. vec_simpl. lra.
Qed.

(** ** C21 *)
Lemma sum_R_app l m : sum_R (l ++ m) = sum_R l + sum_R m.
Proof. unfold sum_R. induction l; cbn; [ring|]. rewrite IHl. ring. Qed.

Lemma sum_R_prod (f : nat * nat -> R) n m :
  sum_R (map f (list_prod (seq 0 (S n)) (seq 0 (S m)))) =
  sum_f_R0 (fun i => sum_f_R0 (fun j => f (i, j)) m) n.
Proof.
  rewrite <- (fold_seq_sum (fun i => sum_f_R0 (fun j => f (i, j)) m)).
  generalize (seq 0 (S n)). induction l as [|i l IH]; [reflexivity|].
  cbn [list_prod map fold_right]. rewrite map_app, sum_R_app, IH. f_equal.
  rewrite map_map. apply fold_seq_sum.
Qed.

Lemma vx_sum l : vx (sum_vec l) = sum_R (map vx l).
Proof. unfold sum_vec, sum_R. induction l; cbn; [reflexivity|]. rewrite <- IHl. reflexivity. Qed.
Lemma vy_sum l : vy (sum_vec l) = sum_R (map vy l).
Proof. unfold sum_vec, sum_R. induction l; cbn; [reflexivity|]. rewrite <- IHl. reflexivity. Qed.
Lemma vz_sum l : vz (sum_vec l) = sum_R (map vz l).
Proof. unfold sum_vec, sum_R. induction l; cbn; [reflexivity|]. rewrite <- IHl. reflexivity. Qed.

Lemma coeff_nth t n k : (k <= n)%nat -> nth k (bezier_coeff t (S n)) 0 = bern n k t.
Proof.
  intros K. unfold bezier_coeff.
  set (f := fun k0 => _). assert (E : nth k (map f (seq 0 (S n))) 0 = f (nth k (seq 0 (S n)) 0%nat)).
  { rewrite (nth_indep _ 0 (f 0%nat)) by (rewrite map_length, seq_length; lia). apply map_nth. }
  rewrite E, seq_nth by lia. unfold f, bern. cbn [Nat.add Nat.sub]. rewrite Nat.sub_0_r. reflexivity.
Qed.

(** A grid has n+1 rows of m+1 entries each. *)
Definition grid {A} (g : list (list A)) (n m : nat) : Prop :=
  length g = S n /\ forall r, In r g -> length r = S m.

Theorem C21_surface_orders_agree u v pts ws n m :
  grid pts n m -> grid ws n m -> (forall w, In w ws -> bezierdc v w <> 0) ->
  nurbezier_surface u v pts ws = nurbezier_surface_2 u v pts ws.
Proof.
  intros [P1 P2] [W1 W2] NZ.
  unfold nurbezier_surface, nurbezier_surface_2.
  assert (HD : length (hd [] pts) = S m) by (destruct pts as [|r ?]; [discriminate|apply P2; left; reflexivity]).
  rewrite P1, HD.
  set (q := map _ (combine pts ws)). set (qw := map _ ws).
  assert (LQ : length q = S n) by (unfold q; rewrite map_length, combine_length; lia).
  assert (LW : length qw = S n) by (unfold qw; rewrite map_length; lia).
  assert (NQW : forall i, (i <= n)%nat -> nth i qw 0 = bezierdc v (nth i ws [])).
  { intros i I. unfold qw. rewrite (nth_indep _ 0 ((fun w => bezier v w) [])) by (rewrite map_length; lia).
    rewrite map_nth. symmetry. apply C15_decasteljau_is_bernstein_weights.
    assert (length (nth i ws []) = S m) by (apply W2, nth_In; lia). intros X. rewrite X in H. discriminate. }
  assert (NQ : forall i, (i <= n)%nat -> nth i q ORIGIN = nurbezier v (nth i pts []) (nth i ws [])).
  { intros i I. unfold q.
    rewrite (nth_indep _ ORIGIN ((fun pw => nurbezier v (fst pw) (snd pw)) ([], [])))
      by (rewrite map_length, combine_length; lia).
    rewrite (map_nth (fun pw : list vec * list R => nurbezier v (fst pw) (snd pw))), combine_nth by lia. reflexivity. }
  assert (SW : forall i, (i <= n)%nat -> nth i qw 0 = sum_f_R0 (fun j => bern m j v * nth j (nth i ws []) 0) m).
  { intros i I. rewrite NQW by assumption. apply bezierdc_sum. apply W2, nth_In. lia. }
  unfold nurbezier at 1.
  assert (DEN : bezierdc u qw = sum_R (map (fun ij => nth (snd ij) (nth (fst ij) ws []) 0 *
      nth (fst ij) (bezier_coeff u (S n)) 0 * nth (snd ij) (bezier_coeff v (S m)) 0)
      (list_prod (seq 0 (S n)) (seq 0 (S m))))).
  { rewrite sum_R_prod, (bezierdc_sum u qw n LW). apply sum_f_ext. intros i I.
    rewrite SW, sum_f_scal by assumption. apply sum_f_ext. intros j J. cbn [fst snd].
    rewrite !coeff_nth by assumption. ring. }
  rewrite <- DEN. f_equal.
  assert (G : forall phi : vec -> R, (forall a b, phi (vadd a b) = phi a + phi b) ->
     (forall c a, phi (smul c a) = c * phi a) ->
     phi (bezierdc u (wpoints q qw)) =
     sum_R (map (fun ij => phi (smul (nth (snd ij) (bezier_coeff v (S m)) 0)
        (smul (nth (fst ij) (bezier_coeff u (S n)) 0)
          (smul (nth (snd ij) (nth (fst ij) ws []) 0) (nth (snd ij) (nth (fst ij) pts []) ORIGIN)))))
      (list_prod (seq 0 (S n)) (seq 0 (S m))))).
  { intros phi HA HS. rewrite sum_R_prod, (wbez_sum phi u q qw n LQ LW HA HS).
    apply sum_f_ext. intros i I. rewrite NQ by assumption. unfold nurbezier. rewrite HS, NQW by assumption.
    assert (Ii : In (nth i ws []) ws) by (apply nth_In; lia).
    rewrite <- (Rmult_assoc (bezierdc v (nth i ws []))), Rinv_r, Rmult_1_l by (apply NZ, Ii).
    assert (Ip : length (nth i pts []) = S m) by (apply P2, nth_In; lia).
    rewrite (wbez_sum phi v _ _ m Ip (W2 _ Ii) HA HS).
    rewrite sum_f_scal. apply sum_f_ext. intros j J. cbn [fst snd]. rewrite !HS, !coeff_nth by assumption. ring. }
  apply vec_eq.
  - rewrite vx_sum, map_map. apply (G vx); intros; reflexivity.
  - rewrite vy_sum, map_map. apply (G vy); intros; reflexivity.
  - rewrite vz_sum, map_map. apply (G vz); intros; reflexivity.
Qed.
Example C21_surface_orders_agree_example :
  nurbezier_surface 2 (1 / 3) [[V 0 0 0; V 1 0 0]; [V 0 1 0; V 1 1 1]] [[1; 2]; [1; -1]]
  = nurbezier_surface_2 2 (1 / 3) [[V 0 0 0; V 1 0 0]; [V 0 1 0; V 1 1 1]] [[1; 2]; [1; -1]].
Proof.
  apply (C21_surface_orders_agree _ _ _ _ 1 1).
  - split; [reflexivity|]. intros r [<-|[<-|[]]]; reflexivity.
  - split; [reflexivity|]. intros r [<-|[<-|[]]]; reflexivity.
  - intros w [<-|[<-|[]]]; unfold bezierdc; cbn; unfold lerp2; cbn; lra.
Qed.

(** Positive weights and parameters in the unit square always qualify. *)
Theorem C21_surface_orders_agree_positive u v pts ws n m :
  grid pts n m -> grid ws n m -> 0 <= v <= 1 ->
  (forall w x, In w ws -> In x w -> 0 < x) ->
  nurbezier_surface u v pts ws = nurbezier_surface_2 u v pts ws.
Proof.
  intros GP GW T P. apply (C21_surface_orders_agree u v pts ws n m); [assumption|assumption|].
  intros w I. destruct GW as [_ W2].
  apply Rgt_not_eq. apply bezierdc_pos; [assumption| |].
  - intros E. specialize (W2 w I). rewrite E in W2. discriminate.
  - apply Forall_forall. intros x. apply P, I.
Qed.

(** Corner interpolation. *)
Theorem C21_surface_corner_00 pts ws n m : grid pts n m -> grid ws n m ->
  hd 0 (hd [] ws) <> 0 ->
  nurbezier_surface 0 0 pts ws = hd ORIGIN (hd [] pts).
Proof.
  intros [P1 P2] [W1 W2] NZ. unfold nurbezier_surface.
  destruct pts as [|r pts]; [discriminate|]. destruct ws as [|w ws]; [discriminate|].
  specialize (P2 r (or_introl eq_refl)). specialize (W2 w (or_introl eq_refl)).
  assert (w <> []) by (intros E; rewrite E in W2; discriminate).
  cbn [hd] in *. cbn [length] in *. rewrite C17_starts_at_first.
  - cbn. apply C17_starts_at_first; [lia|assumption|assumption].
  - rewrite !map_length, combine_length. cbn. lia.
  - discriminate.
  - cbn [map hd]. rewrite <- C15_decasteljau_is_bernstein_weights, bezierdc_R_0 by assumption. assumption.
Qed.
Example C21_surface_corner_00_example :
  nurbezier_surface 0 0 [[V 5 0 0; V 1 0 0]; [V 0 1 0; V 1 1 1]] [[1; 2]; [1; -1]] = V 5 0 0.
Proof.
  apply (C21_surface_corner_00 [[V 5 0 0; V 1 0 0]; [V 0 1 0; V 1 1 1]] [[1; 2]; [1; -1]] 1 1); [| |cbn; lra];
    (split; [reflexivity|]; intros r [<-|[<-|[]]]; reflexivity).
Qed.

Theorem C21_surface_corner_11 pts ws n m : grid pts n m -> grid ws n m ->
  last (last ws []) 0 <> 0 ->
  nurbezier_surface 1 1 pts ws = last (last pts []) ORIGIN.
Proof.
  intros [P1 P2] [W1 W2] NZ. unfold nurbezier_surface.
  assert (LP : length (last pts []) = S m).
  { rewrite <- (last_nth' _ _ _ P1). apply P2, nth_In. lia. }
  assert (LW : length (last ws []) = S m).
  { rewrite <- (last_nth' _ _ _ W1). apply W2, nth_In. lia. }
  assert (NW : last ws [] <> []) by (intros E; rewrite E in LW; discriminate).
  rewrite C17_ends_at_last.
  - assert (LC : length (combine pts ws) = S n) by (rewrite combine_length; lia).
    rewrite <- (last_nth' _ n ORIGIN) by (rewrite map_length; exact LC).
    rewrite (nth_indep _ ORIGIN ((fun pw : list vec * list R => nurbezier 1 (fst pw) (snd pw)) ([], [])))
      by (rewrite map_length; lia).
    rewrite (map_nth (fun pw : list vec * list R => nurbezier 1 (fst pw) (snd pw))), combine_nth by lia.
    cbn [fst snd]. rewrite !last_nth' by lia. apply C17_ends_at_last; [lia|assumption|assumption].
  - rewrite !map_length, combine_length. lia.
  - destruct ws; discriminate.
  - rewrite <- (last_nth' _ n 0) by (rewrite map_length; exact W1).
    rewrite (nth_indep _ 0 (bezier 1 [])) by (rewrite map_length; lia).
    rewrite (map_nth (fun w => bezier 1 w)), last_nth' by lia.
    rewrite <- C15_decasteljau_is_bernstein_weights, bezierdc_R_1 by assumption. assumption.
Qed.
Example C21_surface_corner_11_example :
  nurbezier_surface 1 1 [[V 5 0 0; V 1 0 0]; [V 0 1 0; V 1 1 1]] [[1; 2]; [1; -1]] = V 1 1 1.
Proof.
  apply (C21_surface_corner_11 [[V 5 0 0; V 1 0 0]; [V 0 1 0; V 1 1 1]] [[1; 2]; [1; -1]] 1 1); [| |cbn; lra];
    (split; [reflexivity|]; intros r [<-|[<-|[]]]; reflexivity).
Qed.

Example C21_example :
  nurbezier_surface (1/2) (1/3) [[V 0 0 0; V 1 0 0]; [V 0 1 0; V 1 1 1]] [[1; 2]; [1; 1]] =
  nurbezier_surface_2 (1/2) (1/3) [[V 0 0 0; V 1 0 0]; [V 0 1 0; V 1 1 1]] [[1; 2]; [1; 1]].
Proof.
  apply (C21_surface_orders_agree_positive _ _ _ _ 1 1); try lra.
  - split; [reflexivity|]. intros r [<-|[<-|[]]]; reflexivity.
  - split; [reflexivity|]. intros r [<-|[<-|[]]]; reflexivity.
  - intros w x [<-|[<-|[]]] [<-|[<-|[]]]; lra.
Qed.

(** ** C22 *)
Theorem C22_quadratic_interp_ends p0 p1 p2 :
  bezierdc 0 (calc_quadratic_bezier_interp p0 p1 p2) = p0 /\
  bezierdc 1 (calc_quadratic_bezier_interp p0 p1 p2) = p2.
Proof.
  split; [apply C16_starts_at_first|apply C16_ends_at_last]; discriminate.
Qed.

Theorem C22_quadratic_interp_middle p0 p1 p2 :
  bezierdc (1/2) (calc_quadratic_bezier_interp p0 p1 p2) =
  vsub (smul 2 p1) (smul (1/4) (vadd p0 p2)).
Proof.
  unfold bezierdc, calc_quadratic_bezier_interp. cbn [length Nat.sub iter_step dc_step hd].
  unfold lerp2. cbn [ladd lsc Lin_vec]. destruct p0, p1, p2. apply vec_eq; vec_simpl; field.
Qed.

Theorem C22_quadratic_interp_iff p0 p1 p2 :
  bezierdc (1/2) (calc_quadratic_bezier_interp p0 p1 p2) = p1 <-> p1 = smul (1/4) (vadd p0 p2).
Proof.
  rewrite C22_quadratic_interp_middle. destruct p0, p1, p2. unfold vsub, smul, vadd, vopp. cbn.
  split; intros E; injection E; intros; apply vec_eq; cbn; lra.
Qed.

Theorem C22_quadratic_interp_refuted : exists p0 p1 p2,
  bezierdc (1/2) (calc_quadratic_bezier_interp p0 p1 p2) <> p1.
Proof.
  exists (V 0 0 0), (V 1 1 0), (V 2 0 0). intros E. apply C22_quadratic_interp_iff in E.
  apply (f_equal vy) in E. revert E. vec_simpl. lra.
Qed.
