(** Properties C08-C10 and C75: recipes, tooth parameters, cones. *)
From Coq Require Import Reals Lra List ZArith String Psatz Lia.
From Verif Require Import Num Vec Transform TransformProps Params.
Import ListNotations.
Open Scope R_scope.

(** ** C08 *)

(** Induction principle for fields with nested lists. *)
Lemma field_nest_ind (D : Type) (P : field D -> Prop)
  (HC : forall d, P (FConst d)) (HF : forall f, P (FFun f))
  (HR : forall r, (forall k v, In (k, v) r -> P v) -> P (FRec r))
  (HD : forall r, (forall k v, In (k, v) r -> P v) -> P (FDict r)) : forall v, P v.
Proof.
  fix IH 1. intros [d|f|r|r].
  - apply HC.
  - apply HF.
  - apply HR. induction r as [|[k0 v0] r IHr]; intros k v [].
    + injection H as _ <-. apply IH.
    + apply (IHr k v H).
  - apply HD. induction r as [|[k0 v0] r IHr]; intros k v [].
    + injection H as _ <-. apply IH.
    + apply (IHr k v H).
Qed.

(** Specification of evaluation as a relation between a field and its value at z. *)
Inductive spec_eval {D} (z : R) : field D -> field D -> Prop :=
| SE_const d : spec_eval z (FConst d) (FConst d)
| SE_dict d : spec_eval z (FDict d) (FDict d)
| SE_fun f : spec_eval z (FFun f) (FConst (f z))
| SE_rec r r' : Forall2 (fun a b => fst a = fst b /\ spec_eval z (snd a) (snd b)) r r' ->
    spec_eval z (FRec r) (FRec r').

Lemma eval_field_spec D (z : R) (v : field D) : spec_eval z v (eval_field z v).
Proof.
  induction v using field_nest_ind; simpl; constructor.
  induction r as [|[k v] r IHr]; simpl; constructor.
  - split; [reflexivity|]. apply (H k). left. reflexivity.
  - apply IHr. intros k' v' HI. apply (H k'). right. exact HI.
Qed.

(** The evaluated dictionary has the same keys in the same order, and every entry is the
    evaluation of the original entry. *)
Theorem C08_evaluation_fieldwise D (d : dict D) z :
  Forall2 (fun a b => fst a = fst b /\ spec_eval z (snd a) (snd b)) d (eval_callables d z).
Proof.
  unfold eval_callables. induction d as [|[k v] d IH]; simpl; constructor; [|exact IH].
  split; [reflexivity|]. apply eval_field_spec.
Qed.

Lemma eval_field_idem D z z' (v : field D) : eval_field z' (eval_field z v) = eval_field z v.
Proof.
  induction v using field_nest_ind; simpl; try reflexivity.
  f_equal. rewrite map_map. apply map_ext_in. intros [k v] HI. simpl.
  f_equal. apply (H k v HI).
Qed.

Theorem C08_evaluation_idempotent D (d : dict D) z z' :
  eval_callables (eval_callables d z) z' = eval_callables d z.
Proof.
  unfold eval_callables. rewrite map_map. apply map_ext. intros [k v]. simpl.
  f_equal. apply eval_field_idem.
Qed.

Lemma upd_nth_length {A} n (a : A) l : List.length (upd_nth n a l) = List.length l.
Proof.
  unfold upd_nth. rewrite app_length. rewrite <- (firstn_skipn n l) at 3. rewrite app_length.
  f_equal. destruct (skipn n l); reflexivity.
Qed.
Lemma upd_nth_app {A} (l : list A) x a : upd_nth (List.length l) a (l ++ [x]) = l ++ [a].
Proof.
  unfold upd_nth. rewrite firstn_app, Nat.sub_diag, firstn_all, skipn_app, skipn_all, Nat.sub_diag.
  simpl. rewrite app_nil_r. reflexivity.
Qed.

(** Calling a recipe leaves every existing object (the recipe included) untouched and
    returns a new object holding the evaluated fields. *)
Theorem C08_call_is_pure D (h : store D) i z : (i < List.length h)%nat ->
  let '(j, h') := zcall h i z in
  (forall k, (k < List.length h)%nat -> nth k h' [] = nth k h []) /\
  (List.length h <= j)%nat /\
  Forall2 (fun a b => fst a = fst b /\ spec_eval z (snd a) (snd b)) (nth i h []) (nth j h' []).
Proof.
  intros Hi.
  assert (E : zcall h i z = (List.length h, h ++ [eval_callables (nth i h []) z])).
  { unfold zcall. rewrite app_nth2, Nat.sub_diag by lia. rewrite upd_nth_app. reflexivity. }
  rewrite E. split; [|split].
  - intros k Hk. rewrite app_nth1 by exact Hk. reflexivity.
  - lia.
  - rewrite app_nth2, Nat.sub_diag by lia. simpl. apply C08_evaluation_fieldwise.
Qed.
Example C08_call_is_pure_example :
  let h := [[("scale"%string, FFun (fun z => 1 - z)); ("angle"%string, FConst 5)]] in
  let '(j, h') := zcall h 0 (1 / 4) in nth 0 h' [] = nth 0 h [] /\ (1 <= j)%nat.
Proof.
  intros h. pose proof (C08_call_is_pure R h 0 (1 / 4) ltac:(cbn; lia)) as K. revert K.
  destruct (zcall h 0 (1 / 4)) as [j h']. intros [A [B _]]. split; [apply A; cbn; lia|exact B].
Qed.

(** Making every field callable and evaluating gives the values back (dicts without
    nested plain dicts and recipes). *)
Theorem C08_make_callables_round_trip D (d : dict D) z :
  (forall k v, In (k, v) d -> exists c, v = FConst c) ->
  eval_callables (make_callables d) z = d.
Proof.
  intros H. unfold eval_callables, make_callables. rewrite map_map.
  rewrite <- (map_id d) at 2. apply map_ext_in. intros [k v] HI.
  destruct (H k v HI) as [c ->]. reflexivity.
Qed.
Example C08_make_callables_round_trip_example :
  eval_callables (make_callables [("a"%string, FConst 5); ("b"%string, FConst 7)]) 2
  = [("a"%string, FConst 5); ("b"%string, FConst 7)].
Proof.
  apply C08_make_callables_round_trip. intros k v [H|[H|[]]]; injection H; intros <- _; eexists; reflexivity.
Qed.

(** For nested plain dicts the round trip fails: the nested entries stay callables. *)
Theorem C08_make_callables_nested_refuted : exists (d : dict R) z,
  eval_callables (make_callables d) z <> d.
Proof.
  exists [("a"%string, FDict [("b"%string, FConst 1)])], 0. simpl. intros H. discriminate H.
Qed.

Example C08_example :
  eval_callables [("scale"%string, FFun (fun z => 1 - z)); ("center"%string, FConst 5)] (1/2)
  = [("scale"%string, FConst (1 - 1/2)); ("center"%string, FConst 5)].
Proof. reflexivity. Qed.

(** ** C09 *)
Theorem C09_normalised n cut inside :
  num_teeth (tp_make n cut inside) = Rabs n /\ num_cutout (tp_make n cut inside) = cut /\
  (inside_teeth (tp_make n cut inside) <> inside <-> n < 0).
Proof.
  unfold tp_make. destruct (Rlt_dec n 0); simpl; repeat split.
  - rewrite Rabs_left by lra. ring.
  - intros _. exact r.
  - intros _. destruct inside; discriminate.
  - rewrite Rabs_right by lra. reflexivity.
  - congruence.
  - intros. lra.
Qed.

Theorem C09_idempotent n cut inside :
  let p := tp_make n cut inside in tp_make (num_teeth p) (num_cutout p) (inside_teeth p) = p.
Proof.
  intros p. destruct (C09_normalised n cut inside) as [E _]. fold p in E.
  clearbody p. destruct p as [a b c]. cbn [num_teeth num_cutout inside_teeth] in *.
  unfold tp_make. destruct (Rlt_dec a 0) as [H|H]; [|reflexivity].
  pose proof (Rabs_pos n). lra.
Qed.

(** Two sign flips cancel. *)
Theorem C09_negation n cut inside : n <> 0 ->
  tp_make (- n) cut (negb inside) = tp_make n cut inside.
Proof.
  intros Hn. unfold tp_make. destruct (Rlt_dec (- n) 0), (Rlt_dec n 0); try lra.
  - rewrite Bool.negb_involutive. f_equal. ring.
  - f_equal. ring.
Qed.
Example C09_negation_example : tp_make (-20) 3 true = tp_make 20 3 false.
Proof. apply (C09_negation 20 3 false). lra. Qed.

Theorem C09_pitch_angle_full_turn p : num_teeth p <> 0 ->
  tp_pitch_angle p * num_teeth p = 2 * PI.
Proof. intros H. unfold tp_pitch_angle. field. exact H. Qed.
Example C09_pitch_angle_full_turn_example : tp_pitch_angle (mkTP 17.5 2 true) * 17.5 = 2 * PI.
Proof. apply (C09_pitch_angle_full_turn (mkTP 17.5 2 true)). cbn. lra. Qed.

(** The number of teeth really cut is the greatest integer not above teeth - cutouts. *)
Theorem C09_actual_teeth p :
  IZR (num_teeth_act p) <= num_teeth p - num_cutout p /\
  (forall k : Z, IZR k <= num_teeth p - num_cutout p -> (k <= num_teeth_act p)%Z).
Proof.
  unfold num_teeth_act. split; [apply floorZ_bound|].
  intros k H. apply floorZ_mono in H. rewrite floorZ_IZR in H. exact H.
Qed.
Example C09_actual_teeth_example : (15 <= num_teeth_act (mkTP 17.5 2 true))%Z.
Proof. apply (proj2 (C09_actual_teeth (mkTP 17.5 2 true))). cbn. lra. Qed.

Example C09_example :
  tp_make (-17.5) 2 false = mkTP 17.5 2 true /\ num_teeth_act (mkTP 17.5 2 true) = 15%Z.
Proof.
  split.
  - unfold tp_make. destruct (Rlt_dec (-17.5) 0); [|lra]. cbn [negb]. f_equal. lra.
  - unfold num_teeth_act. cbn [num_teeth num_cutout]. apply floorZ_unique. lra.
Qed.

(** ** C75: cone geometry *)

(** A point of the base circle of the cone (in the plane z = 0 of the cone's frame). *)
Definition spec_base_point (c : conic) (th : R) : vec :=
  apply_transform (V (base_radius c * cos th) (base_radius c * sin th) 0) (c_trf c).

Lemma trig_nonzero g : - (PI / 2) < g < PI / 2 -> g <> 0 -> sin g <> 0 /\ cos g <> 0 /\ tan g <> 0.
Proof.
  intros H N. pose proof PI_RGT_0.
  assert (C : 0 < cos g) by (apply cos_gt_0; lra).
  assert (S : sin g <> 0).
  { destruct (Rlt_dec 0 g).
    - assert (0 < sin g) by (apply sin_gt_0; lra). lra.
    - assert (0 < sin (- g)) by (apply sin_gt_0; lra). rewrite sin_neg in H1. lra. }
  repeat split; [exact S|lra|]. unfold tan. unfold Rdiv.
  apply Rmult_integral_contrapositive. split; [exact S|apply Rinv_neq_0_compat; lra].
Qed.

(** The apex has the same distance, the reported spherical radius, from every base point. *)
Theorem C75_apex_distance c th :
  orthogonal (t_orient (c_trf c)) -> - (PI / 2) < gamma c < PI / 2 -> gamma c <> 0 ->
  norm (vsub (c_center c) (spec_base_point c th)) = c_R c.
Proof.
  intros HO Hg H0. destruct (trig_nonzero _ Hg H0) as (S & C & T).
  unfold c_center, spec_base_point. rewrite C07_transform_scales_distances by exact HO.
  unfold c_R. rewrite Rabs_mult, (Rmult_comm (Rabs (_ / _))). f_equal.
  apply norm_eq; [apply Rabs_pos|].
  rewrite <- Rabs_mult, Rabs_right by (apply Rle_ge, Rle_0_sqr).
  destruct c as [ca br tr]. cbn [base_radius] in *. set (g := gamma _) in *. vec_simpl.
  pose proof (sc1 th) as E. pose proof (sc1 g) as F. unfold tan.
  field_simplify_eq; [|split; assumption || (unfold tan in T; intros X; apply T; rewrite X; unfold Rdiv; ring) || assumption].
  replace (sin th ^ 2) with (1 - cos th ^ 2) by (rewrite <- E; ring).
  replace (sin g ^ 2) with (1 - cos g ^ 2) by (rewrite <- F; ring).
  ring.
Qed.
Example C75_apex_distance_example :
  let c := mkC (PI / 2) 10 (mkT (V 1 2 3) (rotx 1) 2) in
  norm (vsub (c_center c) (spec_base_point c 1)) = c_R c.
Proof.
  intros c. pose proof PI_RGT_0. apply C75_apex_distance; unfold c, gamma; cbn [c_trf cone_angle t_orient];
    [apply (proj1 (rotation_rotx 1))|lra|lra].
Qed.

(** The height is the signed distance of the apex from the base plane along the axis. *)
Theorem C75_apex_height c :
  c_center c = vadd (c_center_base c) (smul (c_height c) (t_z_axis (c_trf c))).
Proof.
  unfold c_center, c_center_base, c_height, t_z_axis. rewrite !apply_transform_eq.
  destruct c as [ca br [cc A s]], cc, A. cbn [c_trf t_orient t_scale t_center base_radius].
  unfold Rdiv. set (k := / tan _). clearbody k. vec_simpl. apply vec_eq; vec_simpl; ring.
Qed.

(** cone_angle is the full opening angle: base radius / axial height = tan(cone_angle/2). *)
Theorem C75_opening_angle c : tan (cone_angle c / 2) <> 0 -> t_scale (c_trf c) = 1 ->
  c_height c * tan (cone_angle c / 2) = base_radius c.
Proof. intros H E. unfold c_height, gamma. rewrite E. field. exact H. Qed.
Example C75_opening_angle_example :
  let c := mkC (PI / 2) 10 (mkT (V 1 2 3) (rotx 1) 1) in c_height c * tan (PI / 2 / 2) = 10.
Proof.
  intros c. apply (C75_opening_angle c); [|reflexivity]. cbn [cone_angle c].
  replace (PI / 2 / 2) with (PI / 4) by field. rewrite tan_PI4. lra.
Qed.

(** ** C10 *)

(** A point on the pitch circle of the slice at height z, in world coordinates. *)
Definition spec_slice_point (T : gtransform) (N cone z th : R) : vec :=
  apply_gear_transform (apply_gear_transform (V (N / 2 * cos th) (N / 2 * sin th) 0)
                          (default_slice N cone z)) T.
(** The apex of the pitch cone in world coordinates. *)
Definition spec_apex (T : gtransform) (N cone : R) : vec :=
  apply_gear_transform (V 0 0 (N / 2 / tan (cone / 2))) T.

Lemma apply_gear_axis T h : apply_gear_transform (smul h OUT) T =
  vadd (smul (g_scale T) (mapp (g_orient T) (smul h OUT))) (g_center T).
Proof.
  rewrite apply_gear_transform_eq, !(mapp_smul _ h), rotz_OUT. reflexivity.
Qed.

Lemma apply_gear_mul_axis A B h : g_orient B = UNIT3X3 ->
  apply_transform (smul h OUT) (g_base (g_mul A B)) =
  apply_gear_transform (apply_gear_transform (smul h OUT) B) A.
Proof.
  intros H. rewrite <- C03_product_is_composition_identity by exact H.
  rewrite apply_gear_axis, apply_transform_eq. reflexivity.
Qed.

(** All slices have the same apex, the image of the cone tip (0,0,rp/tan gamma). *)
Theorem C10_apex_fixed T N cone z :
  N <> 0 -> - PI < cone < PI -> cone <> 0 ->
  c_center (cone_at_z T N cone z) = spec_apex T N cone.
Proof.
  intros HN Hc H0. destruct (trig_nonzero (cone / 2)) as (S & C & K); [lra|lra|].
  unfold c_center, cone_at_z. cbn [base_radius c_trf]. unfold gamma. cbn [cone_angle].
  rewrite smul_smul, apply_gear_mul_axis by reflexivity. unfold spec_apex. f_equal.
  rewrite apply_gear_axis. unfold default_slice. cbn [g_scale g_orient g_center].
  rewrite mapp_I. unfold tan in *. vec_simpl. apply vec_eq; vec_simpl; try ring.
  field. repeat split; assumption.
Qed.
Example C10_apex_fixed_example :
  let T := mkG (V 1 2 3) (rotx 1) 2 (1 / 2) in c_center (cone_at_z T 20 (PI / 2) 3) = spec_apex T 20 (PI / 2).
Proof. intros T. pose proof PI_RGT_0. apply C10_apex_fixed; lra. Qed.

(** Radii of the slices: scale * (rp - z sin gamma); their distance to the apex shrinks
    linearly in z. *)
Theorem C10_slice_on_cone T N cone z th :
  N <> 0 -> - PI < cone < PI -> cone <> 0 ->
  let k := z * sin (cone / 2) / (N / 2) in
  spec_slice_point T N cone z th =
  vadd (smul (1 - k) (spec_slice_point T N cone 0 th)) (smul k (spec_apex T N cone)).
Proof.
  intros HN Hc H0 k. destruct (trig_nonzero (cone / 2)) as (S & C & K); [lra|lra|].
  assert (LIN : forall k p q, apply_gear_transform (vadd (smul (1 - k) p) (smul k q)) T
     = vadd (smul (1 - k) (apply_gear_transform p T)) (smul k (apply_gear_transform q T))).
  { clear. intros. rewrite !apply_gear_transform_eq, !mapp_vadd, !mapp_smul.
    destruct T as [c A s a]. cbn [g_orient g_scale g_center g_angle].
    destruct (mapp A (mapp (rotz a) p)), (mapp A (mapp (rotz a) q)). vec_ring. }
  unfold spec_slice_point, spec_apex. rewrite <- LIN. f_equal.
  rewrite !apply_gear_transform_eq. unfold default_slice. cbn [g_scale g_orient g_center g_angle].
  rewrite rotz_0, !mapp_I. unfold tan, k. vec_simpl. apply vec_eq; vec_simpl.
  - field. assumption.
  - field. assumption.
  - field. repeat split; assumption.
Qed.
Example C10_slice_on_cone_example :
  let T := mkG (V 1 2 3) (rotx 1) 2 (1 / 2) in
  let k := 3 * sin (PI / 2 / 2) / (20 / 2) in
  spec_slice_point T 20 (PI / 2) 3 1
  = vadd (smul (1 - k) (spec_slice_point T 20 (PI / 2) 0 1)) (smul k (spec_apex T 20 (PI / 2))).
Proof. intros T. pose proof PI_RGT_0. apply C10_slice_on_cone; lra. Qed.

Theorem C10_sphere_radius T N cone z :
  N <> 0 -> - PI < cone < PI -> cone <> 0 ->
  c_R (cone_at_z T N cone z) = Rabs (g_scale T * (N / 2 / sin (cone / 2) - z)).
Proof.
  intros HN Hc H0. destruct (trig_nonzero (cone / 2)) as (S & C & K); [lra|lra|].
  unfold c_R, cone_at_z, gamma. cbn [base_radius c_trf cone_angle g_base t_scale g_mul g_scale default_slice].
  f_equal. field. split; assumption.
Qed.
Example C10_sphere_radius_example :
  let T := mkG (V 1 2 3) (rotx 1) 2 (1 / 2) in
  c_R (cone_at_z T 20 (PI / 2) 3) = Rabs (2 * (20 / 2 / sin (PI / 2 / 2) - 3)).
Proof. intros T. pose proof PI_RGT_0. apply (C10_sphere_radius T); lra. Qed.

(** center_sphere of Gear (scale = module) agrees with the cone apex for positive cone
    angles, and is on the wrong side of the gear for negative ones. *)
Theorem C10_center_sphere T N cone :
  0 < N -> 0 < g_scale T -> - PI < cone < PI -> cone <> 0 ->
  (gear_center_sphere T N cone (g_scale T) = spec_apex T N cone <-> (0 < cone \/ g_z_axis T = ORIGIN)).
Proof.
  intros HN Hs Hc H0. destruct (trig_nonzero (cone / 2)) as (S & C & K); [lra|lra|].
  assert (CP : 0 < cos (cone / 2)) by (apply cos_gt_0; lra).
  assert (A : spec_apex T N cone = vadd (g_center T)
      (smul (g_scale T * (N / 2 / tan (cone / 2))) (g_z_axis T))).
  { unfold spec_apex. apply C07_axis_independent_of_angle. }
  assert (B : gear_R N cone (g_scale T) * cos (cone / 2) =
          sign cone * (g_scale T * (N / 2 / tan (cone / 2)))).
  { unfold gear_R, c_R, gamma. cbn [base_radius c_trf cone_angle t_default t_scale].
    rewrite Rmult_1_r. unfold tan.
    destruct (Rlt_dec 0 cone).
    - rewrite sign_pos by assumption. pose proof (sin_gt_0 (cone / 2)).
      assert (0 < sin (cone / 2)) by (apply H; lra).
      rewrite Rabs_right. 2:{ apply Rle_ge. apply Rlt_le. apply Rdiv_lt_0_compat; lra. }
      field. split; lra.
    - rewrite sign_neg by lra. assert (0 < sin (- (cone / 2))) by (apply sin_gt_0; lra).
      rewrite sin_neg in H.
      replace (N / 2 / sin (cone / 2)) with (- (N / 2 / - sin (cone / 2))) by (field; lra).
      rewrite Rabs_Ropp, Rabs_right.
      2:{ apply Rle_ge. apply Rlt_le. apply Rdiv_lt_0_compat; lra. }
      field. split; lra. }
  rewrite A. unfold gear_center_sphere. rewrite B.
  set (h := g_scale T * (N / 2 / tan (cone / 2))).
  assert (Hh : h <> 0).
  { unfold h, Rdiv. repeat apply Rmult_integral_contrapositive_currified;
      try lra; apply Rinv_neq_0_compat; lra. }
  destruct (Rlt_dec 0 cone).
  - rewrite sign_pos, Rmult_1_l by assumption. split; [intros _; left; assumption|reflexivity].
  - rewrite sign_neg by lra. split.
    + intros H. right. rewrite (vadd_comm _ (smul (-1 * h) _)), (vadd_comm _ (smul h _)) in H.
      apply vadd_cancel_r in H. destruct (g_z_axis T) as [x y w]. vec_simpl. injection H; intros.
      apply vec_eq; vec_simpl; apply Rmult_eq_reg_l with h; lra.
    + intros [H|H]; [lra|]. rewrite H, !smul_ORIGIN. reflexivity.
Qed.
Example C10_center_sphere_example :
  let T := mkG (V 1 2 3) (rotx 1) 2 (1 / 2) in gear_center_sphere T 20 (PI / 2) 2 = spec_apex T 20 (PI / 2).
Proof.
  intros T. pose proof PI_RGT_0.
  apply (proj2 (C10_center_sphere T 20 (PI / 2) ltac:(lra) ltac:(cbn; lra) ltac:(lra) ltac:(lra))). left. lra.
Qed.

(** A 20 tooth miter gear: the slice at height 1 shrinks by sin(45 deg) in radius. *)
Example C10_example : g_scale (default_slice 20 (PI / 2) 1) * (20 / 2) = 10 - sin (PI / 4).
Proof. unfold default_slice. cbn [g_scale]. replace (PI / 2 / 2) with (PI / 4) by field. field. Qed.
