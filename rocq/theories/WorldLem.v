(** Lemmas on the store model World.v. *)
From Coq Require Import Reals List ZArith Lia Lra Bool Arith.
From Verif Require Import Num Vec Transform TransformProps Params Coords GearMath GearLem Tooth Wrapper World.
Import ListNotations.
Open Scope R_scope.

(** ** Lists *)
Lemma set_nth_length {A} i (x : A) l : length (set_nth i x l) = length l.
Proof. revert i. induction l as [|a l IH]; intros [|i]; cbn; auto. Qed.
Lemma set_nth_same {A} i (x : A) l : (i < length l)%nat -> nth_error (set_nth i x l) i = Some x.
Proof. revert i. induction l as [|a l IH]; intros [|i] H; cbn in *; try lia; auto. apply IH. lia. Qed.
Lemma set_nth_other {A} i j (x : A) l : i <> j -> nth_error (set_nth i x l) j = nth_error l j.
Proof. revert i j. induction l as [|a l IH]; intros [|i] [|j] H; cbn; auto; try congruence. Qed.
Lemma set_nth_twice {A} i (x y : A) l : set_nth i x (set_nth i y l) = set_nth i x l.
Proof. revert i. induction l as [|a l IH]; intros [|i]; cbn; auto. f_equal. apply IH. Qed.
Lemma nth_set_nth {A} i j (x d : A) l : (i < length l)%nat ->
  nth j (set_nth i x l) d = if Nat.eqb i j then x else nth j l d.
Proof.
  revert i j. induction l as [|a l IH]; intros i j H; cbn in H; [lia|].
  destruct i as [|i], j as [|j]; cbn; auto. apply IH. lia.
Qed.
Lemma Forall_set_nth {A} (P : A -> Prop) i x l : P x -> Forall P l -> Forall P (set_nth i x l).
Proof.
  intros Hx H. revert i. induction H as [|a l Ha H IH]; intros [|i]; cbn; constructor; auto.
Qed.
Lemma nth_error_lt {A} (l : list A) i x : nth_error l i = Some x -> (i < length l)%nat.
Proof. intros H. apply nth_error_Some. congruence. Qed.

(** ** Well-formed worlds: array numbers are valid. *)
Definition wf_gear (w : world) (o : gobj) : Prop :=
  (o_cen o < length (w_vecs w))%nat /\ (o_icen o < length (w_vecs w))%nat /\ (o_ori o < length (w_mats w))%nat.
Definition wf (w : world) : Prop :=
  (0 < length (w_vecs w))%nat /\ (0 < length (w_mats w))%nat /\ Forall (wf_gear w) (w_gears w).

(** [w'] has the arrays of [w] and possibly more. *)
Definition grows (w w' : world) : Prop :=
  exists l m, w_vecs w' = w_vecs w ++ l /\ w_mats w' = w_mats w ++ m.
Lemma grows_refl w : grows w w.
Proof. exists [], []. rewrite !app_nil_r. split; reflexivity. Qed.
Lemma grows_trans a b c : grows a b -> grows b c -> grows a c.
Proof.
  intros (l & m & H1 & H2) (l' & m' & H3 & H4). exists (l ++ l'), (m ++ m').
  rewrite H3, H4, H1, H2, !app_assoc. split; reflexivity.
Qed.
Lemma grows_wf_gear w w' o : grows w w' -> wf_gear w o -> wf_gear w' o.
Proof.
  intros (l & m & H1 & H2) (A & B & C). unfold wf_gear. rewrite H1, H2, !app_length. lia.
Qed.
Lemma grows_vec w w' l : grows w w' -> (l < length (w_vecs w))%nat -> w_vec w' l = w_vec w l.
Proof. intros (a & b & H1 & H2) H. unfold w_vec. rewrite H1. apply app_nth1, H. Qed.
Lemma grows_mat w w' l : grows w w' -> (l < length (w_mats w))%nat -> w_mat w' l = w_mat w l.
Proof. intros (a & b & H1 & H2) H. unfold w_mat. rewrite H2. apply app_nth1, H. Qed.
Lemma grows_trf w w' o : grows w w' -> wf_gear w o -> o_trf w' o = o_trf w o.
Proof.
  intros G (A & B & C). unfold o_trf. rewrite (grows_vec w w'), (grows_mat w w') by assumption. reflexivity.
Qed.
Lemma grows_view w w' o : grows w w' -> wf_gear w o -> o_view w' o = o_view w o.
Proof.
  intros G W. unfold o_view. rewrite (grows_trf w w') by assumption. destruct W as (A & B & C).
  rewrite (grows_vec w w') by assumption. reflexivity.
Qed.
Lemma new_vec_last w v : nth (length (w_vecs w)) (w_vecs w ++ [v]) ORIGIN = v.
Proof. rewrite app_nth2 by lia. rewrite Nat.sub_diag. reflexivity. Qed.
Lemma new_mat_last w m : nth (length (w_mats w)) (w_mats w ++ [m]) UNIT3X3 = m.
Proof. rewrite app_nth2 by lia. rewrite Nat.sub_diag. reflexivity. Qed.

Lemma w_get_Ok w i o : w_get w i = Ok o <-> nth_error (w_gears w) i = Some o.
Proof. unfold w_get. destruct (nth_error _ i); split; intros H; congruence. Qed.
Lemma wf_get w i o : wf w -> nth_error (w_gears w) i = Some o -> wf_gear w o.
Proof. intros (_ & _ & F) H. apply nth_error_In in H. rewrite Forall_forall in F. apply F, H. Qed.

(** ** Orientations computed by calc_mesh_orientation *)
Lemma normalize_r_norm v u : normalize_r v = Ok u -> norm u = 1.
Proof.
  unfold normalize_r. destruct (Req_EM_T (norm v) 0) as [E|E]; [discriminate|]. intros Q.
  injection Q as Q. subst u. unfold normalize. rewrite norm_smul.
  pose proof (norm_nonneg v). rewrite Rabs_right by (left; apply Rinv_0_lt_compat; lra). field. exact E.
Qed.
Lemma mesh_orientation_rotation ca1 ca2 R0 T2 ring1 ring2 t off m : rotation (g_orient T2) ->
  calc_mesh_orientation ca1 ca2 R0 T2 ring1 ring2 t off = Ok m -> rotation m.
Proof.
  intros HR. unfold calc_mesh_orientation.
  set (tn := if Rlt_dec _ _ then _ else _). clearbody tn. set (th := angle_ref _ _ _ _ _ _). clearbody th.
  assert (X : bind (normalize_r (cross tn (g_z_axis T2)))
               (fun ax => Ok (mmul (from_rotvec (smul th ax)) (g_orient T2))) = Ok m -> rotation m).
  { destruct (normalize_r _) as [ax|e] eqn:E; cbn [bind]; [|discriminate]. intros Q. injection Q as Q. subst m.
    apply normalize_r_norm in E. rewrite from_rotvec_axis by exact E.
    apply rotation_mmul; [apply rotation_rodrigues; exact E|exact HR]. }
  destruct (Req_EM_T ca1 0), (Req_EM_T ca2 0); try exact X.
  intros Q. injection Q as Q. subst m. exact HR.
Qed.

(** ** mesh_to *)

(** Result of a successful mesh_to: one new centre array; the orientation is the other gear's
    array or a new one. *)
Lemma mesh_inv w i j sg so a t bl bias w' : wf w ->
  mesh_steps w i j sg so a t bl bias = Ok w' ->
  exists g o v0 ms lm ang,
    nth_error (w_gears w) i = Some g /\ nth_error (w_gears w) j = Some o /\
    w' = mkW (w_vecs w ++ [v0]) (w_mats w ++ ms) (set_nth i (o_move g (length (w_vecs w)) lm ang) (w_gears w)) /\
    ((ms = [] /\ lm = o_ori o) \/
     (exists m, ms = [m] /\ lm = length (w_mats w) /\ (rotation (w_mat w (o_ori o)) -> rotation m))).
Proof.
  intros W. unfold mesh_steps.
  destruct (w_get w i) as [g|e] eqn:Gi; cbn [bind]; [|discriminate]. apply w_get_Ok in Gi.
  destruct (w_get w j) as [o|e] eqn:Gj; cbn [bind]; [|discriminate]. apply w_get_Ok in Gj.
  destruct (normalize_r t) as [target|e]; cbn [bind]; [|discriminate].
  pose proof (nth_error_lt _ _ _ Gi) as Li.
  cbv zeta.
  set (kg := ig_core (o_view w g)). set (ko := ig_core (o_view w o)).
  match goal with |- (if _ then if _ then ?P else ?B else ?B') = _ -> _ => set (planar := P); set (bevel := B) end.
  assert (BE : bevel = Ok w' -> exists g0 o0 v0 ms lm ang,
    nth_error (w_gears w) i = Some g0 /\ nth_error (w_gears w) j = Some o0 /\
    w' = mkW (w_vecs w ++ [v0]) (w_mats w ++ ms) (set_nth i (o_move g0 (length (w_vecs w)) lm ang) (w_gears w)) /\
    ((ms = [] /\ lm = o_ori o0) \/
     (exists m, ms = [m] /\ lm = length (w_mats w) /\ (rotation (w_mat w (o_ori o0)) -> rotation m)))).
  { unfold bevel. destruct (bevel_placement _ _ _ _ _ _) as [v0|e]; cbn [bind w_new_vec]; [|discriminate].
    set (w1 := w_put _ i _).
    destruct (w_get w1 j) as [o1|e] eqn:G1; cbn [bind]; [|discriminate]. apply w_get_Ok in G1.
    assert (OR : g_orient (o_trf w1 o1) = w_mat w (o_ori o)).
    { cbn [o_trf g_orient]. unfold w_mat, w1. cbn [w_put w_mats]. f_equal.
      unfold w1 in G1. cbn [w_put w_gears] in G1.
      destruct (Nat.eq_dec i j) as [<-|N].
      - rewrite set_nth_same in G1 by exact Li. injection G1 as <-. rewrite Gi in Gj. injection Gj as <-. reflexivity.
      - rewrite set_nth_other in G1 by exact N. rewrite Gj in G1. injection G1 as <-. reflexivity. }
    destruct (calc_mesh_orientation _ _ _ _ _ _ _ _) as [m|e] eqn:CM; cbn [bind w_new_mat]; [|discriminate].
    set (w2 := w_put _ i _).
    destruct (w_get w2 i) as [g2|e] eqn:G2; cbn [bind]; [|discriminate].
    destruct (w_get w2 j) as [o2|e] eqn:G3; cbn [bind]; [|discriminate].
    intros Q. injection Q as Q. subst w'.
    exists g, o, v0, [m], (length (w_mats w)). eexists. split; [exact Gi|]. split; [exact Gj|]. split.
    - unfold w2, w1, w_put. cbn [w_vecs w_mats w_gears]. rewrite !set_nth_twice. reflexivity.
    - right. exists m. split; [reflexivity|]. split; [reflexivity|]. intros HR.
      apply (mesh_orientation_rotation _ _ _ _ _ _ _ _ _ ltac:(rewrite OR; exact HR) CM). }
  assert (PL : planar = Ok w' -> exists g0 o0 v0 ms lm ang,
    nth_error (w_gears w) i = Some g0 /\ nth_error (w_gears w) j = Some o0 /\
    w' = mkW (w_vecs w ++ [v0]) (w_mats w ++ ms) (set_nth i (o_move g0 (length (w_vecs w)) lm ang) (w_gears w)) /\
    ((ms = [] /\ lm = o_ori o0) \/
     (exists m, ms = [m] /\ lm = length (w_mats w) /\ (rotation (w_mat w (o_ori o0)) -> rotation m)))).
  { unfold planar. cbn [w_new_vec].
    set (v0 := vadd _ _). set (w1 := w_put _ i _).
    destruct (w_get w1 j) as [o1|e] eqn:G1; cbn [bind]; [|discriminate]. apply w_get_Ok in G1.
    assert (OR : o_ori o1 = o_ori o).
    { unfold w1 in G1. cbn [w_put w_gears] in G1.
      destruct (Nat.eq_dec i j) as [<-|N].
      - rewrite set_nth_same in G1 by exact Li. injection G1 as <-. rewrite Gi in Gj. injection Gj as <-. reflexivity.
      - rewrite set_nth_other in G1 by exact N. rewrite Gj in G1. injection G1 as <-. reflexivity. }
    set (w2 := w_put _ i _).
    destruct (w_get w2 i) as [g2|e] eqn:G2; cbn [bind]; [|discriminate].
    destruct (w_get w2 j) as [o2|e] eqn:G3; cbn [bind]; [|discriminate].
    intros Q. injection Q as Q. subst w'.
    exists g, o, v0, [], (o_ori o). eexists. split; [exact Gi|]. split; [exact Gj|]. split.
    - unfold w2, w1, w_put. cbn [w_vecs w_mats w_gears]. rewrite !set_nth_twice, app_nil_r, OR. reflexivity.
    - left. split; reflexivity. }
  destruct (Req_EM_T (k_cone kg) 0); [destruct (Req_EM_T (k_cone ko) 0)|]; assumption.
Qed.

(** The base radius does not depend on centre, orientation and angle. *)
Lemma r_base_place g T1 T2 : orthogonal (g_orient T1) -> orthogonal (g_orient T2) ->
  g_scale T1 = g_scale T2 -> ig_r_base (ig_place g T1) = ig_r_base (ig_place g T2).
Proof.
  intros H1 H2 S. unfold ig_r_base, ig_base_circle_radius, ig_place. cbn [ig_core].
  change (k_p2z (with_trf (ig_core g) T1) 0) with (k_p2z (ig_core g) 0).
  change (k_p2z (with_trf (ig_core g) T2) 0) with (k_p2z (ig_core g) 0).
  set (z := k_p2z _ _). clearbody z. cbn [k_trf with_trf k_rp k_alpha].
  change (k_slice (with_trf (ig_core g) T1) z) with (k_slice (ig_core g) z).
  change (k_slice (with_trf (ig_core g) T2) z) with (k_slice (ig_core g) z).
  assert (O : forall T, orthogonal (g_orient T) -> orthogonal (g_orient (g_mul T (k_slice (ig_core g) z)))).
  { intros T HT. unfold g_mul. cbn [g_orient k_slice]. apply orthogonal_mmul; [exact HT|apply rotation_I]. }
  rewrite !C07_gear_transform_scales_distances by (apply O; assumption).
  unfold g_mul. cbn [g_scale]. rewrite S. reflexivity.
Qed.

(** For two different gears the store version computes what the value version computes. *)
Lemma mesh_value w i j sg so a t bl bias g o : wf w -> i <> j ->
  nth_error (w_gears w) i = Some g -> nth_error (w_gears w) j = Some o ->
  orthogonal (w_mat w (o_ori g)) -> orthogonal (w_mat w (o_ori o)) ->
  match ig_mesh_to (o_view w g) (o_view w o) sg so a t bl bias with
  | Err e => mesh_steps w i j sg so a t bl bias = Err e
  | Ok g' => exists w', mesh_steps w i j sg so a t bl bias = Ok w' /\ view w' i = Some g'
  end.
Proof.
  intros W N Gi Gj Og Oo. unfold mesh_steps, ig_mesh_to.
  rewrite (proj2 (w_get_Ok w i g) Gi), (proj2 (w_get_Ok w j o) Gj). cbn [bind].
  destruct (normalize_r t) as [target|e]; cbn [bind]; [|reflexivity].
  pose proof (nth_error_lt _ _ _ Gi) as Li.
  pose proof (wf_get _ _ _ W Gi) as Wg. pose proof (wf_get _ _ _ W Gj) as Wo.
  cbv zeta.
  set (kg := ig_core (o_view w g)). set (ko := ig_core (o_view w o)).
  assert (TO : k_trf ko = o_trf w o) by reflexivity.
  assert (TG : k_trf kg = o_trf w g) by reflexivity. rewrite TO, TG.
  assert (VW : forall v ms lm ang,
     let w' := mkW (w_vecs w ++ [v]) (w_mats w ++ ms) (set_nth i (o_move g (length (w_vecs w)) lm ang) (w_gears w)) in
     view w' i = Some (ig_place (o_view w g) (mkG v (nth lm (w_mats w ++ ms) UNIT3X3) (o_scale g) ang))).
  { intros v ms lm ang w'. unfold view. unfold w'. cbn [w_gears]. rewrite set_nth_same by exact Li.
    cbn [option_map]. f_equal. unfold o_view, ig_place. f_equal.
    - cbn [o_move o_in o_icen]. unfold w_vec. cbn [w_vecs]. destruct Wg as (_ & B & _).
      rewrite app_nth1 by exact B. reflexivity.
    - cbn [o_move o_core]. unfold o_trf, w_vec, w_mat. cbn [o_move o_cen o_ori o_scale o_angle w_vecs w_mats].
      rewrite new_vec_last. reflexivity. }
  assert (BE : match bind (bevel_placement target (k_cone_data kg) (k_cone_data ko)
                  (ip_inside (ig_in (o_view w g))) (ip_inside (ig_in (o_view w o))) 0) (fun v0 =>
              bind (calc_mesh_orientation (k_cone kg) (k_cone ko) (c_R (k_recipe_cone kg)) (o_trf w o)
                      (ip_inside (ig_in (o_view w g))) (ip_inside (ig_in (o_view w o))) target 0) (fun ori =>
              Ok (ig_place (o_view w g) (mkG v0 ori (g_scale (o_trf w g))
                  (calc_mesh_angle (mkG v0 ori (g_scale (o_trf w g)) (g_angle (o_trf w g))) (o_trf w o)
                     (k_pitch_angle kg) (k_pitch_angle ko)
                 (inside_teeth (k_tooth kg)) (inside_teeth (k_tooth ko))))))) with
    | Err e => bind (bevel_placement target (k_cone_data kg) (k_cone_data ko)
          (ip_inside (ig_in (o_view w g))) (ip_inside (ig_in (o_view w o))) 0) (fun v0 =>
          let (lc, w1) := w_new_vec w v0 in
          bind (w_get (w_put w1 i (o_move g lc (o_ori g) (o_angle g))) j) (fun o1 =>
          bind (calc_mesh_orientation (k_cone kg) (k_cone ko) (c_R (k_recipe_cone kg))
              (o_trf (w_put w1 i (o_move g lc (o_ori g) (o_angle g))) o1)
              (ip_inside (ig_in (o_view w g))) (ip_inside (ig_in (o_view w o))) target 0) (fun m =>
          let (lm, w2) := w_new_mat (w_put w1 i (o_move g lc (o_ori g) (o_angle g))) m in
          bind (w_get (w_put w2 i (o_move g lc lm (o_angle g))) i) (fun g2 =>
          bind (w_get (w_put w2 i (o_move g lc lm (o_angle g))) j) (fun o2 =>
          Ok (w_put (w_put w2 i (o_move g lc lm (o_angle g))) i (o_move g lc lm
            (calc_mesh_angle (o_trf (w_put w2 i (o_move g lc lm (o_angle g))) g2)
               (o_trf (w_put w2 i (o_move g lc lm (o_angle g))) o2) (k_pitch_angle kg) (k_pitch_angle ko)
               (inside_teeth (k_tooth kg)) (inside_teeth (k_tooth ko)))))))))) = Err e
    | Ok g' => exists w', bind (bevel_placement target (k_cone_data kg) (k_cone_data ko)
          (ip_inside (ig_in (o_view w g))) (ip_inside (ig_in (o_view w o))) 0) (fun v0 =>
          let (lc, w1) := w_new_vec w v0 in
          bind (w_get (w_put w1 i (o_move g lc (o_ori g) (o_angle g))) j) (fun o1 =>
          bind (calc_mesh_orientation (k_cone kg) (k_cone ko) (c_R (k_recipe_cone kg))
              (o_trf (w_put w1 i (o_move g lc (o_ori g) (o_angle g))) o1)
              (ip_inside (ig_in (o_view w g))) (ip_inside (ig_in (o_view w o))) target 0) (fun m =>
          let (lm, w2) := w_new_mat (w_put w1 i (o_move g lc (o_ori g) (o_angle g))) m in
          bind (w_get (w_put w2 i (o_move g lc lm (o_angle g))) i) (fun g2 =>
          bind (w_get (w_put w2 i (o_move g lc lm (o_angle g))) j) (fun o2 =>
          Ok (w_put (w_put w2 i (o_move g lc lm (o_angle g))) i (o_move g lc lm
            (calc_mesh_angle (o_trf (w_put w2 i (o_move g lc lm (o_angle g))) g2)
               (o_trf (w_put w2 i (o_move g lc lm (o_angle g))) o2) (k_pitch_angle kg) (k_pitch_angle ko)
               (inside_teeth (k_tooth kg)) (inside_teeth (k_tooth ko)))))))))) = Ok w' /\ view w' i = Some g'
    end).
  { destruct (bevel_placement _ _ _ _ _ _) as [v0|e]; cbn [bind w_new_vec]; [|reflexivity].
    set (w1 := w_put _ i _).
    assert (G1 : w_get w1 j = Ok o).
    { apply w_get_Ok. unfold w1. cbn [w_put w_gears]. rewrite set_nth_other by exact N. exact Gj. }
    rewrite G1. cbn [bind].
    assert (GR1 : grows w w1) by (exists [v0], []; unfold w1; cbn [w_put w_vecs w_mats]; rewrite app_nil_r; split; reflexivity).
    rewrite (grows_trf w w1 o GR1 Wo).
    destruct (calc_mesh_orientation _ _ _ _ _ _ _ _) as [m|e]; cbn [bind w_new_mat]; [|reflexivity].
    set (w2 := w_put _ i _).
    assert (G2 : w_get w2 i = Ok (o_move g (length (w_vecs w)) (length (w_mats w1)) (o_angle g))).
    { apply w_get_Ok. unfold w2. cbn [w_put w_gears]. apply set_nth_same.
      unfold w1. cbn [w_put w_gears]. rewrite set_nth_length. exact Li. }
    assert (G3 : w_get w2 j = Ok o).
    { apply w_get_Ok. unfold w2. cbn [w_put w_gears]. rewrite set_nth_other by exact N.
      unfold w1. cbn [w_put w_gears]. rewrite set_nth_other by exact N. exact Gj. }
    rewrite G2, G3. cbn [bind].
    assert (GR2 : grows w w2).
    { apply (grows_trans _ w1); [exact GR1|]. exists [], [m]. unfold w2. cbn [w_put w_vecs w_mats].
      rewrite app_nil_r. split; reflexivity. }
    rewrite (grows_trf w w2 o GR2 Wo).
    eexists. split; [reflexivity|].
    replace (o_trf w2 (o_move g (length (w_vecs w)) (length (w_mats w1)) (o_angle g)))
      with (mkG v0 m (g_scale (o_trf w g)) (g_angle (o_trf w g))).
    2:{ unfold o_trf, w_vec, w_mat, w2, w1. cbn [o_move o_cen o_ori o_scale o_angle w_put w_vecs w_mats g_scale g_angle].
        rewrite new_vec_last, new_mat_last. reflexivity. }
    set (ang := calc_mesh_angle _ _ _ _ _ _). clearbody ang.
    unfold w2, w1, w_put. cbn [w_vecs w_mats w_gears]. rewrite !set_nth_twice.
    specialize (VW v0 [m] (length (w_mats w)) ang). cbv zeta in VW. rewrite VW, new_mat_last. reflexivity. }
  destruct (Req_EM_T (k_cone kg) 0); [destruct (Req_EM_T (k_cone ko) 0)|]; [|exact BE|exact BE].
  clear BE. cbn [w_new_vec].
  set (v0 := vadd _ _). set (w1 := w_put _ i _).
  assert (G1 : w_get w1 j = Ok o).
  { apply w_get_Ok. unfold w1. cbn [w_put w_gears]. rewrite set_nth_other by exact N. exact Gj. }
  rewrite G1. cbn [bind].
  set (w2 := w_put _ i _).
  assert (G2 : w_get w2 i = Ok (o_move g (length (w_vecs w)) (o_ori o) (o_angle g))).
  { apply w_get_Ok. unfold w2. cbn [w_put w_gears]. apply set_nth_same.
    unfold w1. cbn [w_put w_gears]. rewrite set_nth_length. exact Li. }
  assert (G3 : w_get w2 j = Ok o).
  { apply w_get_Ok. unfold w2. cbn [w_put w_gears]. rewrite set_nth_other by exact N.
    unfold w1. cbn [w_put w_gears]. rewrite set_nth_other by exact N. exact Gj. }
  rewrite G2, G3. cbn [bind].
  assert (GR2 : grows w w2).
  { exists [v0], []. unfold w2, w1. cbn [w_put w_vecs w_mats]. rewrite app_nil_r. split; reflexivity. }
  rewrite (grows_trf w w2 o GR2 Wo).
  assert (T2 : o_trf w2 (o_move g (length (w_vecs w)) (o_ori o) (o_angle g)) =
     mkG v0 (g_orient (o_trf w o)) (g_scale (o_trf w g)) (g_angle (o_trf w g))).
  { unfold o_trf, w_vec, w_mat, w2, w1. cbn [o_move o_cen o_ori o_scale o_angle w_put w_vecs w_mats g_scale g_angle g_orient].
    rewrite new_vec_last. reflexivity. }
  rewrite T2.
  replace (ig_r_base (o_view w2 (o_move g (length (w_vecs w)) (o_ori o) (o_angle g)))) with (ig_r_base (o_view w g)).
  2:{ unfold o_view at 2. rewrite T2. unfold o_move. cbn [o_in o_icen o_core].
      symmetry. etransitivity; [|apply (r_base_place (o_view w g) (mkG v0 (g_orient (o_trf w o)) (g_scale (o_trf w g)) (g_angle (o_trf w g))) (o_trf w g)); [exact Oo|exact Og|reflexivity]].
      unfold ig_r_base, ig_base_circle_radius, ig_place. reflexivity. }
  eexists. split; [reflexivity|].
  unfold w2, w1, w_put. cbn [w_vecs w_mats w_gears]. rewrite !set_nth_twice.
  set (ang := _ + _). clearbody ang.
  specialize (VW v0 [] (o_ori o) ang). cbv zeta in VW. rewrite app_nil_r in VW. rewrite VW. reflexivity.
Qed.

(** ** Shape of a step *)
Definition receiver (c : op) : option nat :=
  match c with
  | New _ _ | Copy _ => None
  | MeshTo i _ _ _ _ _ _ _ | Reset i | SetCenter i _ | AddCenter i _ | SetAngle i _ | SetOrient i _
  | FillOrient i _ | Boundary i | SetModule i _ | SetCone i _ | SetCrown i _ | Calc i => Some i
  end.
(** Operations that write into an existing array. *)
Definition in_place (c : op) : bool :=
  match c with AddCenter _ _ | FillOrient _ _ => true | _ => false end.
Definition sets_module (c : op) : bool := match c with SetModule _ _ => true | _ => false end.
(** Orientations assigned by the user are rotations. *)
Definition rot_arg (c : op) : Prop :=
  match c with SetOrient _ m | FillOrient _ m => rotation m | _ => True end.

Lemma set_nth_id {A} i (x : A) l : nth_error l i = Some x -> set_nth i x l = l.
Proof.
  revert i. induction l as [|a l IH]; intros [|i] H; cbn in *; try congruence. f_equal. apply IH, H.
Qed.

(** Gear data as calc_params leaves it, except module, input crowning and placement. *)
Definition consistent (o : gobj) : Prop :=
  (forall T, with_trf (o_core o) T = with_trf (with_module (calc_params (o_in o)) (k_module (o_core o))) T) /\
  o_scale o = ip_module (o_in o).

Lemma calc_consistent w i o : consistent (o_calc w i o).
Proof. split; reflexivity. Qed.
Lemma move_consistent o c m a : consistent o -> consistent (o_move o c m a).
Proof. intros [A B]. split; assumption. Qed.

(** Everything the theorems need about a step that does not write in place. *)
Lemma step_shape w c w' : wf w -> step w c = Ok w' -> in_place c = false ->
  grows w w' /\
  (rot_arg c -> Forall rotation (w_mats w) -> Forall rotation (w_mats w')) /\
  ((exists o', receiver c = None /\ w_gears w' = w_gears w ++ [o'] /\ wf_gear w' o' /\
      ((exists p, o_in o' = ip_normalise p /\ consistent o' /\ k_module (o_core o') = ip_module (o_in o')) \/
       (exists i o, nth_error (w_gears w) i = Some o /\ o_in o' = o_in o /\ o_core o' = o_core o /\ o_scale o' = o_scale o))) \/
   (exists i o o', receiver c = Some i /\ nth_error (w_gears w) i = Some o /\
      w_gears w' = set_nth i o' (w_gears w) /\ wf_gear w' o' /\ o_icen o' = o_icen o /\
      o_scale o' = (match c with Calc _ => ip_module (o_in o) | _ => o_scale o end) /\
      (o_in o' = o_in o \/ exists cr, o_in o' = with_crown (o_in o) cr) /\
      (consistent o -> consistent o') /\
      (sets_module c = false -> k_module (o_core o) = ip_module (o_in o) -> k_module (o_core o') = ip_module (o_in o')))).
Proof.
  intros W. destruct W as (W1 & W2 & W3). pose proof (conj W1 (conj W2 W3) : wf w) as W.
  assert (GET : forall i o, nth_error (w_gears w) i = Some o -> wf_gear w o) by (intros; eapply wf_get; eassumption).
  assert (RN : forall w' v, w_mats w' = w_mats w ++ [v] -> rotation v -> Forall rotation (w_mats w) -> Forall rotation (w_mats w')).
  { intros x v -> H F. apply Forall_app. split; [exact F|]. constructor; [exact H|constructor]. }
  destruct c as [p d|i j sg so a t bl bias|i|i v|i v|i a|i m|i m|i|i|i m|i c|i c|i]; cbn [step in_place];
    intros H IP; try discriminate.
  - (* New *)
    destruct d.
    + cbn [w_new_vec] in H. injection H as H. subst w'. cbn [w_vecs w_mats w_gears].
      split; [exists [], []; rewrite !app_nil_r; split; reflexivity|]. split; [auto|]. left.
      eexists. split; [reflexivity|]. split; [reflexivity|]. split.
      * unfold wf_gear, o_calc. cbn [o_cen o_icen o_ori w_vecs w_mats]. lia.
      * left. exists p. split; [reflexivity|]. split; [apply calc_consistent|reflexivity].
    + cbn [w_new_vec] in H. injection H as H. subst w'. cbn [w_vecs w_mats w_gears].
      split; [exists [ip_center p], []; rewrite !app_nil_r; split; reflexivity|]. split; [auto|]. left.
      eexists. split; [reflexivity|]. split; [reflexivity|]. split.
      * unfold wf_gear, o_calc. cbn [o_cen o_icen o_ori w_vecs w_mats]. rewrite app_length. cbn [length]. lia.
      * left. exists p. split; [reflexivity|]. split; [apply calc_consistent|reflexivity].
  - (* MeshTo *)
    destruct (mesh_inv _ _ _ _ _ _ _ _ _ _ W H) as (g & o & v0 & ms & lm & ang & Gi & Gj & -> & LM).
    cbn [w_vecs w_mats w_gears]. split; [exists [v0], ms; split; reflexivity|]. split.
    { intros _ F. apply Forall_app. split; [exact F|]. destruct LM as [[-> _]|(m & -> & _ & Hm)]; [constructor|].
      constructor; [|constructor]. apply Hm. destruct (GET _ _ Gj) as (_ & _ & C).
      rewrite Forall_forall in F. apply F. apply nth_In, C. }
    right. exists i, g, (o_move g (length (w_vecs w)) lm ang). split; [reflexivity|]. split; [exact Gi|].
    split; [reflexivity|]. pose proof (GET _ _ Gi) as (A & B & C). pose proof (GET _ _ Gj) as (A' & B' & C').
    split; [unfold wf_gear; cbn [o_move o_cen o_icen o_ori w_vecs w_mats]; rewrite !app_length; cbn [length];
            destruct LM as [[-> ->]|(m & -> & -> & _)]; cbn [length]; lia|].
    split; [reflexivity|]. split; [reflexivity|]. split; [left; reflexivity|].
    split; [apply move_consistent|intros _ E; exact E].
  - (* Reset *)
    destruct (w_get w i) as [o|e] eqn:G; cbn [bind] in H; [|discriminate]. apply w_get_Ok in G.
    injection H as H. subst w'. cbn [w_put w_vecs w_mats w_gears].
    split; [exists [], []; rewrite !app_nil_r; split; reflexivity|]. split; [auto|]. right.
    exists i, o, (o_move o 0 0 0). pose proof (GET _ _ G) as (A & B & C).
    split; [reflexivity|]. split; [exact G|]. split; [reflexivity|].
    split; [unfold wf_gear; cbn; lia|]. split; [reflexivity|]. split; [reflexivity|].
    split; [left; reflexivity|]. split; [apply move_consistent|intros _ E; exact E].
  - (* SetCenter *)
    destruct (w_get w i) as [o|e] eqn:G; cbn [bind] in H; [|discriminate]. apply w_get_Ok in G.
    cbn [w_new_vec] in H. injection H as H. subst w'. cbn [w_put w_vecs w_mats w_gears].
    split; [exists [v], []; rewrite !app_nil_r; split; reflexivity|]. split; [auto|]. right.
    exists i, o, (o_move o (length (w_vecs w)) (o_ori o) (o_angle o)). pose proof (GET _ _ G) as (A & B & C).
    split; [reflexivity|]. split; [exact G|]. split; [reflexivity|].
    split; [unfold wf_gear; cbn; rewrite ?app_length; cbn [length]; lia|]. split; [reflexivity|]. split; [reflexivity|].
    split; [left; reflexivity|]. split; [apply move_consistent|intros _ E; exact E].
  - (* SetAngle *)
    destruct (w_get w i) as [o|e] eqn:G; cbn [bind] in H; [|discriminate]. apply w_get_Ok in G.
    injection H as H. subst w'. cbn [w_put w_vecs w_mats w_gears].
    split; [exists [], []; rewrite !app_nil_r; split; reflexivity|]. split; [auto|]. right.
    exists i, o, (o_move o (o_cen o) (o_ori o) a). pose proof (GET _ _ G) as (A & B & C).
    split; [reflexivity|]. split; [exact G|]. split; [reflexivity|].
    split; [unfold wf_gear; cbn; lia|]. split; [reflexivity|]. split; [reflexivity|].
    split; [left; reflexivity|]. split; [apply move_consistent|intros _ E; exact E].
  - (* SetOrient *)
    destruct (w_get w i) as [o|e] eqn:G; cbn [bind] in H; [|discriminate]. apply w_get_Ok in G.
    cbn [w_new_mat] in H. injection H as H. subst w'. cbn [w_put w_vecs w_mats w_gears].
    split; [exists [], [m]; rewrite !app_nil_r; split; reflexivity|].
    split; [intros Hm F; apply Forall_app; split; [exact F|constructor; [exact Hm|constructor]]|]. right.
    exists i, o, (o_move o (o_cen o) (length (w_mats w)) (o_angle o)). pose proof (GET _ _ G) as (A & B & C).
    split; [reflexivity|]. split; [exact G|]. split; [reflexivity|].
    split; [unfold wf_gear; cbn; rewrite ?app_length; cbn [length]; lia|]. split; [reflexivity|]. split; [reflexivity|].
    split; [left; reflexivity|]. split; [apply move_consistent|intros _ E; exact E].
  - (* Boundary *)
    destruct (w_get w i) as [o|e] eqn:G; cbn [bind] in H; [|discriminate]. apply w_get_Ok in G.
    injection H as H. subst w'. cbn [w_put w_vecs w_mats w_gears].
    split; [exists [], []; rewrite !app_nil_r; split; reflexivity|]. split; [auto|]. right.
    exists i, o. eexists. split; [reflexivity|]. split; [exact G|]. split; [reflexivity|].
    pose proof (GET _ _ G) as (A & B & C).
    split; [unfold wf_gear; cbn [w_put o_move o_cen o_icen o_ori w_vecs w_mats]; lia|]. split; [reflexivity|]. split; [reflexivity|].
    split; [left; reflexivity|]. split; [apply move_consistent|intros _ E; exact E].
  - (* Copy *)
    destruct (w_get w i) as [o|e] eqn:G; cbn [bind] in H; [|discriminate]. apply w_get_Ok in G.
    cbn [w_new_vec] in H. pose proof (GET _ _ G) as (A & B & C).
    destruct (Nat.eqb (o_cen o) (o_icen o)); cbn [w_new_vec w_new_mat w_vecs w_mats w_gears] in H;
      injection H as H; subst w'; cbn [w_vecs w_mats w_gears].
    + split; [eexists; eexists; split; reflexivity|].
      split; [intros _ F; apply Forall_app; split; [exact F|constructor; [|constructor]];
              rewrite Forall_forall in F; apply F, nth_In, C|].
      left. eexists. split; [reflexivity|]. split; [reflexivity|].
      split; [unfold wf_gear; cbn [o_cen o_icen o_ori w_vecs w_mats]; rewrite !app_length; cbn [length]; lia|].
      right. exists i, o. split; [exact G|]. repeat split.
    + split; [eexists; eexists; split; [rewrite <- app_assoc|]; reflexivity|].
      split; [intros _ F; apply Forall_app; split; [exact F|constructor; [|constructor]];
              rewrite Forall_forall in F; apply F, nth_In, C|].
      left. eexists. split; [reflexivity|]. split; [reflexivity|].
      split; [unfold wf_gear; cbn [o_cen o_icen o_ori w_vecs w_mats]; rewrite !app_length; cbn [length]; lia|].
      right. exists i, o. split; [exact G|]. repeat split.
  - (* SetModule *)
    destruct (w_get w i) as [o|e] eqn:G; cbn [bind] in H; [|discriminate]. apply w_get_Ok in G.
    injection H as H. subst w'. cbn [w_put w_vecs w_mats w_gears].
    split; [exists [], []; rewrite !app_nil_r; split; reflexivity|]. split; [auto|]. right.
    exists i, o. eexists. split; [reflexivity|]. split; [exact G|]. split; [reflexivity|].
    pose proof (GET _ _ G) as (A & B & C).
    split; [unfold wf_gear; cbn [w_put o_move o_cen o_icen o_ori w_vecs w_mats]; lia|]. split; [reflexivity|]. split; [reflexivity|].
    split; [left; reflexivity|]. split; [|discriminate].
    intros [X Y]. split; [|exact Y]. intros T. specialize (X T). cbn [o_core o_in k_module with_module].
    change (with_module (with_trf (o_core o) T) m = with_trf (with_module (calc_params (o_in o)) m) T).
    rewrite X. reflexivity.
  - (* SetCone *)
    destruct (w_get w i) as [o|e] eqn:G; cbn [bind] in H; [|discriminate]. apply w_get_Ok in G.
    injection H as H. subst w'.
    split; [apply grows_refl|]. split; [auto|]. right.
    exists i, o, o. split; [reflexivity|]. split; [exact G|]. split; [symmetry; apply set_nth_id, G|].
    split; [apply (GET _ _ G)|]. split; [reflexivity|]. split; [reflexivity|]. split; [left; reflexivity|]. split; auto.
  - (* SetCrown *)
    destruct (w_get w i) as [o|e] eqn:G; cbn [bind] in H; [|discriminate]. apply w_get_Ok in G.
    injection H as H. subst w'. cbn [w_put w_vecs w_mats w_gears].
    split; [exists [], []; rewrite !app_nil_r; split; reflexivity|]. split; [auto|]. right.
    exists i, o. eexists. split; [reflexivity|]. split; [exact G|]. split; [reflexivity|].
    pose proof (GET _ _ G) as (A & B & C).
    split; [unfold wf_gear; cbn [w_put o_move o_cen o_icen o_ori w_vecs w_mats]; lia|]. split; [reflexivity|]. split; [reflexivity|].
    split; [right; eexists; reflexivity|]. split; [|intros _ E; exact E].
    intros [X Y]. split; [|exact Y]. intros T. rewrite X. reflexivity.
  - (* Calc *)
    destruct (w_get w i) as [o|e] eqn:G; cbn [bind] in H; [|discriminate]. apply w_get_Ok in G.
    injection H as H. subst w'. cbn [w_put w_vecs w_mats w_gears].
    split; [exists [], []; rewrite !app_nil_r; split; reflexivity|]. split; [auto|]. right.
    exists i, o, (o_calc w i o). split; [reflexivity|]. split; [exact G|]. split; [reflexivity|].
    pose proof (GET _ _ G) as (A & B & C).
    split; [unfold wf_gear; cbn [w_put o_calc o_cen o_icen o_ori w_vecs w_mats]; lia|]. split; [reflexivity|]. split; [reflexivity|].
    split; [left; reflexivity|]. split; [intros _; apply calc_consistent|reflexivity].
Qed.

(** In-place steps keep the gear objects. *)
Lemma step_in_place w c w' : step w c = Ok w' -> in_place c = true ->
  w_gears w' = w_gears w /\ length (w_vecs w') = length (w_vecs w) /\ length (w_mats w') = length (w_mats w) /\
  (rot_arg c -> Forall rotation (w_mats w) -> Forall rotation (w_mats w')).
Proof.
  destruct c; cbn [step in_place]; intros H IP; try discriminate;
    (destruct (w_get w i) as [o|e] eqn:G; cbn [bind] in H; [|discriminate]); injection H as H; subst w';
    cbn [w_vecs w_mats w_gears]; rewrite ?set_nth_length; repeat split; auto.
  intros Hm F. apply Forall_set_nth; assumption.
Qed.

Lemma step_wf w c w' : wf w -> step w c = Ok w' -> wf w'.
Proof.
  intros W H. destruct (in_place c) eqn:IP.
  - destruct (step_in_place _ _ _ H IP) as (E & L1 & L2 & _). destruct W as (W1 & W2 & W3).
    repeat split; try lia. rewrite E. eapply Forall_impl; [|exact W3].
    intros o (A & B & C). unfold wf_gear. lia.
  - destruct (step_shape _ _ _ W H IP) as (G & _ & SH). destruct W as (W1 & W2 & W3).
    assert (L1 : (length (w_vecs w) <= length (w_vecs w'))%nat /\ (length (w_mats w) <= length (w_mats w'))%nat).
    { destruct G as (l & m & -> & ->). rewrite !app_length. lia. }
    assert (F : Forall (wf_gear w') (w_gears w)).
    { eapply Forall_impl; [|exact W3]. intros o. apply grows_wf_gear, G. }
    repeat split; try lia.
    destruct SH as [(o' & _ & -> & Wo & _)|(i & o & o' & _ & _ & -> & Wo & _)].
    + apply Forall_app. split; [exact F|]. constructor; [exact Wo|constructor].
    + apply Forall_set_nth; assumption.
Qed.
Lemma run_wf w cs w' : wf w -> run w cs = Ok w' -> wf w'.
Proof.
  revert w. induction cs as [|c cs IH]; intros w W H; cbn [run] in H; [injection H as <-; exact W|].
  destruct (step w c) as [w1|e] eqn:S; cbn [bind] in H; [|discriminate].
  apply (IH w1); [apply (step_wf _ _ _ W S)|exact H].
Qed.
Lemma wf_init : wf w_init.
Proof. repeat split; cbn; auto. Qed.

(** Invariant induction over runs. *)
Lemma run_ind (I : world -> Prop) (P : op -> Prop) :
  (forall w c w', wf w -> I w -> P c -> step w c = Ok w' -> I w') ->
  forall cs w w', wf w -> I w -> Forall P cs -> run w cs = Ok w' -> I w'.
Proof.
  intros ST. induction cs as [|c cs IH]; intros w w' W HI F H; cbn [run] in H; [injection H as <-; exact HI|].
  destruct (step w c) as [w1|e] eqn:S; cbn [bind] in H; [|discriminate].
  inversion F as [|? ? Pc Pcs]; subst. apply (IH w1); eauto using step_wf.
Qed.

Lemma run_rotations w cs w' : wf w -> Forall rotation (w_mats w) -> Forall rot_arg cs -> run w cs = Ok w' ->
  Forall rotation (w_mats w').
Proof.
  intros W F R H. refine (run_ind (fun w => Forall rotation (w_mats w)) rot_arg _ cs w w' W F R H).
  intros a c b Wa Fa Pc S. destruct (in_place c) eqn:IP.
  - apply (step_in_place _ _ _ S IP); assumption.
  - apply (step_shape _ _ _ Wa S IP); assumption.
Qed.

Lemma run_consistent w cs w' : wf w -> Forall consistent (w_gears w) -> run w cs = Ok w' ->
  Forall consistent (w_gears w').
Proof.
  intros W F H. refine (run_ind (fun w => Forall consistent (w_gears w)) (fun _ => True) _ cs w w' W F _ H).
  2:{ clear. induction cs; constructor; auto. }
  intros a c b Wa Fa _ S. destruct (in_place c) eqn:IP.
  - destruct (step_in_place _ _ _ S IP) as (-> & _). exact Fa.
  - destruct (step_shape _ _ _ Wa S IP) as (_ & _ & [(o' & _ & -> & _ & CO)|(i & o & o' & _ & G & -> & _ & _ & _ & _ & CO & _)]).
    + apply Forall_app. split; [exact Fa|]. constructor; [|constructor].
      destruct CO as [(p & _ & CO & _)|(i & o & G & E1 & E2 & E3)]; [exact CO|].
      apply nth_error_In in G. rewrite Forall_forall in Fa. apply Fa in G. unfold consistent in *.
      rewrite E1, E2, E3. exact G.
    + apply Forall_set_nth; [|exact Fa]. apply CO. apply nth_error_In in G.
      rewrite Forall_forall in Fa. apply Fa, G.
Qed.

Lemma run_module w cs w' : wf w -> Forall (fun o => k_module (o_core o) = ip_module (o_in o)) (w_gears w) ->
  Forall (fun c => sets_module c = false) cs -> run w cs = Ok w' ->
  Forall (fun o => k_module (o_core o) = ip_module (o_in o)) (w_gears w').
Proof.
  intros W F M H.
  refine (run_ind (fun w => Forall (fun o => k_module (o_core o) = ip_module (o_in o)) (w_gears w)) _ _ cs w w' W F M H).
  intros a c b Wa Fa Mc S. destruct (in_place c) eqn:IP.
  - destruct (step_in_place _ _ _ S IP) as (-> & _). exact Fa.
  - destruct (step_shape _ _ _ Wa S IP) as (_ & _ & [(o' & _ & -> & _ & CO)|(i & o & o' & _ & G & -> & _ & _ & _ & _ & _ & CO)]).
    + apply Forall_app. split; [exact Fa|]. constructor; [|constructor].
      destruct CO as [(p & _ & _ & CO)|(i & o & G & E1 & E2 & E3)]; [exact CO|].
      apply nth_error_In in G. rewrite Forall_forall in Fa. apply Fa in G. rewrite E1, E2. exact G.
    + apply Forall_set_nth; [|exact Fa]. apply CO; [exact Mc|]. apply nth_error_In in G.
      rewrite Forall_forall in Fa. apply Fa, G.
Qed.
