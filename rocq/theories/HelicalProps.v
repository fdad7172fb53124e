(** Properties C70, C71, C77, C79: helical gears. *)
From Coq Require Import Reals Lra Psatz Lia ZArith List Bool Sorted.
From Verif Require Import Num Vec Transform TransformProps Params ParamsProps Coords GearMath GearLem Tooth Wrapper
  MeshLem MeshConj MeshProps MeshAngleProps MeshContactProps BevelProps World WorldLem Info InfoProps.
Import ListNotations.
Open Scope R_scope.

(** ** C70: normal-plane dimensions *)

(** Dimensions of the gear, in length units, from its core data: pitch radius, tip radius, root
    radius, tooth thickness (arc) on the pitch circle of a section, arc from tooth to tooth. *)
Definition pitch_radius_of (g : igear) : R := k_module (ig_core g) * k_rp (ig_core g).
Definition tip_height (g : igear) : R := k_module (ig_core g) * k_ha (ig_core g).
Definition root_depth (g : igear) : R := k_module (ig_core g) * k_hd (ig_core g).
Definition arc_pitch (g : igear) : R := pitch_radius_of g * k_pitch_angle (ig_core g).
Definition arc_thickness (g : igear) : R := pitch_radius_of g * (2 * k_tooth_angle (ig_core g)).

Lemma helical_core p hb : exists zs, ig_core (h_gear (helical_new p hb)) = with_zvals (ig_core (ig_new (helical_param p false))) zs.
Proof.
  unfold helical_new. destruct hb; cbn [herringbone_mod h_gear ig_core]; eexists; unfold with_zvals; reflexivity.
Qed.
Lemma helical_in p hb : ig_in (h_gear (helical_new p hb)) = ip_normalise (helical_param p false).
Proof. unfold helical_new. destruct hb; reflexivity. Qed.

Lemma helical_normalise p r : 0 < ip_teeth p -> ip_normalise (helical_param p r) = helical_param p r.
Proof. intros H. unfold ip_normalise. cbn [helical_param ip_teeth]. destruct (Rlt_dec _ 0); [lra|reflexivity]. Qed.

(** In the plane normal to the tooth (lengths along the pitch circle times [cos beta]) a helical
    gear has the pitch, tooth thickness, addendum and dedendum of a spur gear with the given
    module, profile shift and pressure angle. *)
Theorem C70_normal_dimensions p hb : 0 < ip_teeth p -> 0 < cos (ip_helix p) ->
  let g := h_gear (helical_new p hb) in
  let m := ip_module p in
  arc_pitch g * cos (ip_helix p) = PI * m /\
  arc_thickness g * cos (ip_helix p) = m * (PI / 2 + 2 * ip_shift p * tan (ip_alpha p) - 2 * ip_backlash p) /\
  tip_height g = m * (ip_add p + ip_shift p) /\
  root_depth g = m * (ip_ded p - ip_shift p) /\
  pitch_radius_of g = m * ip_teeth p / (2 * cos (ip_helix p)) /\
  tan (k_alpha (ig_core g)) * cos (ip_helix p) = tan (ip_alpha p).
Proof.
  intros Hn Cb g m. destruct (helical_core p hb) as (zs & E). fold g in E.
  unfold arc_pitch, arc_thickness, tip_height, root_depth, pitch_radius_of, k_pitch_angle. rewrite E. clear E g.
  unfold ig_new. rewrite helical_normalise by exact Hn.
  cbn [ig_core with_zvals calc_params k_module k_rp k_tooth k_tooth_angle k_ha k_hd k_alpha
    helical_param ip_teeth ip_inside ip_module ip_add ip_ded ip_shift ip_alpha ip_backlash].
  rewrite tp_make_pos by lra. unfold tp_pitch_angle. cbn [num_teeth].
  rewrite tan_atan. fold m. repeat split; field; lra.
Qed.

(** The tooth line on the pitch cylinder: for the point at angle [phi] of the section, its place
    on the section at height [z]. *)
Definition tooth_line (g : igear) (angle : R -> R) (phi z : R) : vec :=
  let S := k_slice (ig_core g) z in
  apply_gear_transform (smul (k_rp (ig_core g)) (V (cos phi) (sin phi) 0))
    (g_mul (k_trf (ig_core g)) (mkG (g_center S) (g_orient S) (g_scale S) (angle z))).

(** Derivative of a vector valued function. *)
Definition derives (f : R -> vec) (z : R) (d : vec) : Prop :=
  derivable_pt_lim (fun x => vx (f x)) z (vx d) /\ derivable_pt_lim (fun x => vy (f x)) z (vy d) /\
  derivable_pt_lim (fun x => vz (f x)) z (vz d).

(** A plain or ring helical gear at some place. *)
Record helical_gear (g : igear) (n : Z) (beta : R) : Prop := {
  hg_n : (0 < n)%Z;
  hg_num : num_teeth (k_tooth (ig_core g)) = IZR n;
  hg_rp : k_rp (ig_core g) = IZR n / 2;
  hg_cone : k_cone (ig_core g) = 0;
  hg_gamma : k_gamma (ig_core g) = 0;
  hg_spiral : k_spiral (ig_core g) = tan beta / (IZR n / 2);
  hg_beta : ip_helix (ig_in g) = beta;
  hg_steep : 0 < cos beta;
  hg_scale : 0 < g_scale (k_trf (ig_core g));
  hg_rot : rotation (g_orient (k_trf (ig_core g))) }.

Lemma tooth_line_eq g n beta angle phi z : helical_gear g n beta ->
  let T := k_trf (ig_core g) in
  tooth_line g angle phi z =
  vadd (g_center T) (smul (g_scale T) (vadd (smul z (g_z_axis T))
    (smul (IZR n / 2) (dir (g_orient T) (g_angle T + angle z + phi))))).
Proof.
  intros H T. unfold tooth_line, apply_gear_transform.
  cbn [g_mul k_slice g_center g_orient g_scale g_angle]. fold T.
  rewrite (hg_gamma _ _ _ H), (hg_num _ _ _ H), (hg_rp _ _ _ H), sin_0, cos_0, !vmat_mtrans, mmul_I_r.
  unfold dir, g_z_axis.
  replace (g_angle T + angle z + phi) with ((g_angle T + angle z) + phi) by ring.
  rewrite (cos_plus _ phi), (sin_plus _ phi).
  pose proof (IZR_lt _ _ (hg_n _ _ _ H)).
  generalize (g_center T) (g_orient T) (g_scale T) (g_angle T + angle z) (g_angle T) (IZR n) H0. clear.
  intros c O s th ga nn Hn. destruct O, c. apply vec_eq; vec_simpl; field; lra.
Qed.

Lemma derivable_ext f g x l : (forall t, f t = g t) -> derivable_pt_lim f x l -> derivable_pt_lim g x l.
Proof. intros E D eps He. destruct (D eps He) as (d & Q). exists d. intros h h0 hd. rewrite <- !E. auto. Qed.

Lemma derives_helix c A B C w ph z : derives
  (fun x => vadd c (vadd (smul x A) (vadd (smul (cos (w * x + ph)) B) (smul (sin (w * x + ph)) C)))) z
  (vadd A (vadd (smul (- (w * sin (w * z + ph))) B) (smul (w * cos (w * z + ph)) C))).
Proof.
  assert (L : derivable_pt_lim (fun x => w * x + ph) z w).
  { assert (W : w * 1 + 0 = w) by ring. cut (derivable_pt_lim (fun x => w * x + ph) z (w * 1 + 0)); [intros Q; rewrite W in Q; exact Q|]. clear W. apply (derivable_pt_lim_plus (fun x => w * x) (fun _ => ph)).
    - apply (derivable_pt_lim_scal id). apply derivable_pt_lim_id.
    - apply derivable_pt_lim_const. }
  assert (Co : derivable_pt_lim (fun x => cos (w * x + ph)) z (- sin (w * z + ph) * w)).
  { apply (derivable_pt_lim_comp (fun x => w * x + ph) cos); [exact L|apply derivable_pt_lim_cos]. }
  assert (Si : derivable_pt_lim (fun x => sin (w * x + ph)) z (cos (w * z + ph) * w)).
  { apply (derivable_pt_lim_comp (fun x => w * x + ph) sin); [exact L|apply derivable_pt_lim_sin]. }
  assert (G : forall c0 a b d, derivable_pt_lim (fun x => c0 + (x * a + (cos (w * x + ph) * b + sin (w * x + ph) * d))) z
    (a + (- (w * sin (w * z + ph)) * b + w * cos (w * z + ph) * d))).
  { intros c0 a b d.
    replace (a + (- (w * sin (w * z + ph)) * b + w * cos (w * z + ph) * d)) with
      (0 + ((a * 1) + (b * (- sin (w * z + ph) * w) + d * (cos (w * z + ph) * w)))) by ring.
    apply (derivable_ext (fun x => c0 + (a * x + (b * cos (w * x + ph) + d * sin (w * x + ph))))); [intros; ring|].
    apply (derivable_pt_lim_plus (fun _ => c0)); [apply derivable_pt_lim_const|].
    apply (derivable_pt_lim_plus (fun x => a * x)); [apply (derivable_pt_lim_scal id), derivable_pt_lim_id|].
    apply (derivable_pt_lim_plus (fun x => b * cos (w * x + ph)));
      [apply (derivable_pt_lim_scal (fun x => cos (w * x + ph))), Co|apply (derivable_pt_lim_scal (fun x => sin (w * x + ph))), Si]. }
  split; [|split]; cbn [vx vy vz vadd smul]; apply G.
Qed.

Lemma derives_ext f g z d : (forall t, f t = g t) -> derives f z d -> derives g z d.
Proof.
  intros E (A & B & C). split; [|split];
    [refine (derivable_ext _ _ _ _ _ A)|refine (derivable_ext _ _ _ _ _ B)|refine (derivable_ext _ _ _ _ _ C)];
    intros t; cbn; rewrite E; reflexivity.
Qed.

Lemma derives_scale k f z d : derives f z d -> derives (fun x => smul k (f x)) z (smul k d).
Proof.
  intros (A & B & C). split; [|split]; cbn [smul vx vy vz];
    [apply (derivable_pt_lim_scal (fun x => vx (f x)))|apply (derivable_pt_lim_scal (fun x => vy (f x)))|apply (derivable_pt_lim_scal (fun x => vz (f x)))]; assumption.
Qed.

(** The tooth lines of a helical gear make the angle [beta] with the axis: the tangent is the
    axis direction plus [tan beta] times the circumferential direction. *)
Theorem C70_helix_angle g n beta phi z : helical_gear g n beta ->
  let T := k_trf (ig_core g) in
  derives (tooth_line g (fun x => x * k_spiral (ig_core g)) phi) z
    (smul (g_scale T) (vadd (g_z_axis T)
       (smul (tan beta) (dir' (g_orient T) (g_angle T + z * k_spiral (ig_core g) + phi))))).
Proof.
  intros H T. pose proof (IZR_lt _ _ (hg_n _ _ _ H)) as Hn.
  eapply derives_ext; [intros t; symmetry; apply (tooth_line_eq g n beta); exact H|]. fold T. cbn beta.
  set (w := k_spiral (ig_core g)). set (s := g_scale T).
  assert (W : w = tan beta / (IZR n / 2)) by apply (hg_spiral _ _ _ H).
  eapply (derives_ext (fun x => vadd (g_center T) (vadd (smul x (smul s (g_z_axis T))) (vadd
    (smul (cos (w * x + (g_angle T + phi))) (smul (s * (IZR n / 2)) (mapp (g_orient T) RIGHT)))
    (smul (sin (w * x + (g_angle T + phi))) (smul (s * (IZR n / 2)) (mapp (g_orient T) UP))))))).
  - intros t. unfold dir. replace (g_angle T + t * w + phi) with (w * t + (g_angle T + phi)) by ring.
    generalize (g_center T) (g_z_axis T) (g_orient T) (cos (w * t + (g_angle T + phi))) (sin (w * t + (g_angle T + phi))).
    clear. intros c a O co si. destruct c, a, O. apply vec_eq; vec_simpl; field.
  - match goal with |- derives _ _ ?d => replace d with
      (vadd (smul s (g_z_axis T)) (vadd
        (smul (- (w * sin (w * z + (g_angle T + phi)))) (smul (s * (IZR n / 2)) (mapp (g_orient T) RIGHT)))
        (smul (w * cos (w * z + (g_angle T + phi))) (smul (s * (IZR n / 2)) (mapp (g_orient T) UP))))) end.
    + apply derives_helix.
    + unfold dir'. replace (g_angle T + z * w + phi) with (w * z + (g_angle T + phi)) by ring.
      replace (tan beta) with (w * (IZR n / 2)) by (rewrite W; field; lra).
      generalize (g_z_axis T) (g_orient T) (cos (w * z + (g_angle T + phi))) (sin (w * z + (g_angle T + phi))) w (IZR n).
      clear. intros a O co si w n. destruct a, O. apply vec_eq; vec_simpl; field.
Qed.

(** ** C70: sections *)

Lemma u_insert_In x l y : In y (u_insert x l) <-> y = x \/ In y l.
Proof.
  induction l as [|z l IH]; cbn [u_insert In]; [intuition congruence|].
  destruct (Rlt_dec x z); [cbn [In]; intuition congruence|].
  destruct (Req_EM_T x z) as [->|N]; cbn [In]; [intuition congruence|rewrite IH; intuition congruence].
Qed.
Lemma np_unique_In l y : In y (np_unique l) <-> In y l.
Proof. induction l as [|z l IH]; cbn [np_unique fold_right In]; [reflexivity|]. fold (np_unique l). rewrite u_insert_In, IH. intuition congruence. Qed.
Lemma u_insert_sorted x l : StronglySorted Rlt l -> StronglySorted Rlt (u_insert x l).
Proof.
  induction 1 as [|z l S IH F]; cbn [u_insert]; [constructor; constructor|].
  destruct (Rlt_dec x z) as [L|L].
  - constructor; [constructor; assumption|]. constructor; [exact L|].
    apply Forall_forall. intros y Hy. rewrite Forall_forall in F. specialize (F y Hy). lra.
  - destruct (Req_EM_T x z) as [->|N]; [constructor; assumption|].
    constructor; [exact IH|]. apply Forall_forall. intros y Hy. rewrite u_insert_In in Hy.
    rewrite Forall_forall in F. destruct Hy as [->|Hy]; [lra|auto].
Qed.
Lemma np_unique_sorted l : StronglySorted Rlt (np_unique l).
Proof. induction l; [constructor|]. cbn. apply u_insert_sorted. exact IHl. Qed.

Lemma sorted_head l a : StronglySorted Rlt l -> In a l -> (forall x, In x l -> a <= x) -> nth 0 l 0 = a.
Proof.
  intros S I B. destruct l as [|z l]; [contradiction|]. cbn [nth].
  inversion S as [|? ? S' F]; subst. destruct I as [->|I]; [reflexivity|].
  rewrite Forall_forall in F. specialize (F a I). specialize (B z (or_introl eq_refl)). lra.
Qed.
Lemma sorted_last l a : StronglySorted Rlt l -> In a l -> (forall x, In x l -> x <= a) -> last l 0 = a.
Proof.
  intros S. induction S as [|z l S IH F]; intros I B; [contradiction|].
  destruct l as [|y l]; [destruct I as [->|[]]; reflexivity|].
  change (last (z :: y :: l) 0) with (last (y :: l) 0). apply IH.
  - destruct I as [->|I]; [|exact I]. exfalso. rewrite Forall_forall in F.
    specialize (F y (or_introl eq_refl)). specialize (B y (or_intror (or_introl eq_refl))). lra.
  - intros x Hx. apply B. right. exact Hx.
Qed.
Lemma sorted_next l i c : StronglySorted Rlt l -> (S i < length l)%nat -> In c l -> nth i l 0 < c -> nth (S i) l 0 <= c.
Proof.
  intros S. revert i. induction S as [|z l S IH F]; intros i Hi I L; [cbn in Hi; lia|].
  rewrite Forall_forall in F. cbn [length] in Hi.
  destruct i as [|i].
  - cbn [nth] in *. destruct I as [->|I]; [lra|].
    destruct l as [|y l]; [contradiction|]. cbn [nth]. inversion S as [|? ? S' F']; subst.
    destruct I as [->|I]; [lra|]. rewrite Forall_forall in F'. specialize (F' c I). lra.
  - cbn [nth] in L. change (nth (Datatypes.S (Datatypes.S i)) (z :: l) 0) with (nth (Datatypes.S i) l 0).
    destruct I as [->|I].
    + exfalso. assert (In (nth i l 0) l) by (apply nth_In; lia). specialize (F _ H). lra.
    + apply IH; [lia|exact I|exact L].
Qed.
Lemma sorted_step l i : StronglySorted Rlt l -> (S i < length l)%nat -> nth i l 0 < nth (S i) l 0.
Proof.
  intros S. revert i. induction S as [|z l S IH F]; intros i Hi; [cbn in Hi; lia|].
  destruct i as [|i].
  - cbn [nth]. rewrite Forall_forall in F. apply F. apply nth_In. cbn in Hi. lia.
  - cbn [nth]. apply IH. cbn in Hi. lia.
Qed.

Lemma np_linspace_In a b n x : (2 <= n)%nat ->
  In x (np_linspace a b n) <-> exists i, (i < n)%nat /\ x = a + INR i * ((b - a) / INR (n - 1)).
Proof.
  intros Hn. destruct n as [|[|m]]; try lia. unfold np_linspace.
  rewrite in_map_iff. replace (Datatypes.S (Datatypes.S m) - 1)%nat with (Datatypes.S m) by lia. split.
  - intros (i & <- & I). apply in_seq in I. exists i. split; [lia|reflexivity].
  - intros (i & I & ->). exists i. split; [reflexivity|]. apply in_seq. lia.
Qed.

Lemma linspace_bounds a b n x : (2 <= n)%nat -> a <= b -> In x (np_linspace a b n) -> a <= x <= b.
Proof.
  intros Hn L I. apply np_linspace_In in I; [|exact Hn]. destruct I as (i & Hi & ->).
  assert (0 < INR (n - 1)) by (apply lt_0_INR; lia).
  assert (INR i <= INR (n - 1)) by (apply le_INR; lia). pose proof (pos_INR i).
  assert (0 <= (b - a) / INR (n - 1)) by (apply Rmult_le_pos; [lra|apply Rlt_le, Rinv_0_lt_compat; lra]).
  split; [nra|].
  replace b with (a + INR (n - 1) * ((b - a) / INR (n - 1))) at 2 by (field; lra). nra.
Qed.
Lemma linspace_ends a b n : (2 <= n)%nat -> In a (np_linspace a b n) /\ In b (np_linspace a b n).
Proof.
  intros Hn. assert (0 < INR (n - 1)) by (apply lt_0_INR; lia).
  rewrite !np_linspace_In by exact Hn. split.
  - exists 0%nat. split; [lia|]. cbn. ring.
  - exists (n - 1)%nat. split; [lia|]. field. lra.
Qed.

(** Refined lists have no gap wider than the step of the grid. *)
Lemma refined_gap l z0 zl n i : StronglySorted Rlt l -> (2 <= n)%nat -> z0 < zl ->
  (forall x, In x l -> z0 <= x <= zl) -> (forall x, In x (np_linspace z0 zl n) -> In x l) ->
  (S i < length l)%nat -> 0 < nth (S i) l 0 - nth i l 0 <= (zl - z0) / INR (n - 1).
Proof.
  intros S Hn L B G Hi. pose proof (sorted_step l i S Hi) as St.
  split; [lra|]. assert (N1 : 0 < INR (n - 1)) by (apply lt_0_INR; lia).
  set (h := (zl - z0) / INR (n - 1)) in *. assert (Hh : 0 < h) by (apply Rdiv_lt_0_compat; lra).
  set (a := nth i l 0) in *.
  assert (Ha : z0 <= a) by (apply B, nth_In; lia).
  assert (Hb : nth (Datatypes.S i) l 0 <= zl) by (apply B, nth_In; lia).
  set (q := floorZ ((a - z0) / h)). pose proof (floorZ_bound ((a - z0) / h)) as FB. fold q in FB.
  assert (E : (a - z0) / h * h = a - z0) by (field; lra).
  assert (Q0 : (0 <= q)%Z).
  { apply le_IZR. assert (0 <= (a - z0) / h) by (apply Rmult_le_pos; [lra|apply Rlt_le, Rinv_0_lt_compat; lra]).
    assert (-1 < IZR q) by lra. change (-1) with (IZR (-1)) in H0. apply lt_IZR in H0. apply IZR_le. lia. }
  assert (QI : IZR q = INR (Z.to_nat q)) by (rewrite INR_IZR_INZ, Z2Nat.id by lia; reflexivity).
  set (j := Z.to_nat q) in *.
  assert (Hz : zl - z0 = INR (n - 1) * h) by (unfold h; field; lra).
  assert (Hj : (j < n - 1)%nat).
  { apply INR_lt. rewrite <- QI. apply (Rmult_lt_reg_r h); [lra|]. nra. }
  assert (IC : In (z0 + INR (Datatypes.S j) * h) l).
  { apply G. apply np_linspace_In; [exact Hn|]. exists (Datatypes.S j). split; [lia|reflexivity]. }
  rewrite S_INR in IC. assert (AC : a < z0 + (INR j + 1) * h) by (rewrite <- QI; nra).
  pose proof (sorted_next l i _ S Hi IC AC) as SN. rewrite <- QI in SN. nra.
Qed.

Lemma list_max_spec l : l <> [] -> In (list_max l) l /\ forall x, In x l -> x <= list_max l.
Proof.
  unfold list_max. destruct l as [|a l]; [contradiction|]. intros _. cbn [hd].
  assert (G : forall l, (fold_right Rmax a l = a \/ In (fold_right Rmax a l) l) /\ a <= fold_right Rmax a l /\
    forall x, In x l -> x <= fold_right Rmax a l).
  { clear. induction l as [|y l (I1 & I2 & I3)]; cbn [fold_right In]; [split; [left; reflexivity|split; [lra|contradiction]]|].
    set (r := fold_right Rmax a l) in *. destruct (Rle_dec y r); [rewrite Rmax_right by lra|rewrite Rmax_left by lra].
    - split; [destruct I1; [left|right; right]; assumption|]. split; [exact I2|]. intros x [->|Hx]; auto.
    - split; [right; left; reflexivity|]. split; [lra|]. intros x [->|Hx]; [lra|]. specialize (I3 x Hx). lra. }
  destruct (G (a :: l)) as (G1 & G2 & G3). split; [|exact G3].
  destruct G1 as [->|G1]; [left; reflexivity|exact G1].
Qed.
Lemma list_min_spec l : l <> [] -> In (list_min l) l /\ forall x, In x l -> list_min l <= x.
Proof.
  unfold list_min. destruct l as [|a l]; [contradiction|]. intros _. cbn [hd].
  assert (G : forall l, (fold_right Rmin a l = a \/ In (fold_right Rmin a l) l) /\ fold_right Rmin a l <= a /\
    forall x, In x l -> fold_right Rmin a l <= x).
  { clear. induction l as [|y l (I1 & I2 & I3)]; cbn [fold_right In]; [split; [left; reflexivity|split; [lra|contradiction]]|].
    set (r := fold_right Rmin a l) in *. destruct (Rle_dec y r); [rewrite Rmin_left by lra|rewrite Rmin_right by lra].
    - split; [right; left; reflexivity|]. split; [lra|]. intros x [->|Hx]; [lra|]. specialize (I3 x Hx). lra.
    - split; [destruct I1; [left|right; right]; assumption|]. split; [exact I2|]. intros x [->|Hx]; [lra|auto]. }
  destruct (G (a :: l)) as (G1 & G2 & G3). split; [|exact G3].
  destruct G1 as [->|G1]; [left; reflexivity|exact G1].
Qed.

Lemma twist_linear zs angle w : nth 0 zs 0 <= nth 1 zs 0 ->
  (forall z, nth 0 zs 0 <= z <= nth 1 zs 0 -> angle z = z * w) ->
  twist_of zs angle = Rabs w * (nth 1 zs 0 - nth 0 zs 0).
Proof.
  intros L A. unfold twist_of. set (z0 := nth 0 zs 0) in *. set (z1 := nth 1 zs 0) in *.
  set (l := np_linspace z0 z1 20). set (sm := map angle l).
  destruct (linspace_ends z0 z1 20) as (E0 & E1); [lia|]. fold l in E0, E1.
  assert (NE : sm <> []) by (unfold sm, l; cbn; discriminate).
  destruct (list_max_spec sm NE) as (M1 & M2). destruct (list_min_spec sm NE) as (N1 & N2).
  assert (BD : forall y, In y sm -> exists z, z0 <= z <= z1 /\ y = z * w).
  { intros y Hy. apply in_map_iff in Hy. destruct Hy as (z & <- & Hz).
    pose proof (linspace_bounds z0 z1 20 z ltac:(lia) L Hz). exists z. split; [exact H|]. apply A. exact H. }
  assert (S0 : In (z0 * w) sm) by (rewrite <- A by lra; apply in_map; exact E0).
  assert (S1 : In (z1 * w) sm) by (rewrite <- A by lra; apply in_map; exact E1).
  pose proof (M2 _ S0). pose proof (M2 _ S1). pose proof (N2 _ S0). pose proof (N2 _ S1).
  destruct (BD _ M1) as (zm & Bm & Em). destruct (BD _ N1) as (zn & Bn & En).
  rewrite Em, En in *.
  assert (0 <= (zm * w - zn * w)) by (specialize (N2 _ M1); lra).
  rewrite Rabs_right by lra.
  unfold Rabs. destruct (Rcase_abs w); nra.
Qed.

Lemma twist_zvals_spec zs angle w D : StronglySorted Rlt zs -> (2 <= length zs)%nat -> 0 < D ->
  (forall i, (S i < length zs)%nat -> nth (S i) zs 0 - nth i zs 0 = D) ->
  (forall z, nth 0 zs 0 <= z <= nth 1 zs 0 -> angle z = z * w) ->
  (forall y z, Rabs (angle y - angle z) <= Rabs w * Rabs (y - z)) ->
  let l := twist_zvals zs angle in
  StronglySorted Rlt l /\ (forall x, In x zs -> In x l) /\
  nth 0 l 0 = nth 0 zs 0 /\ last l 0 = last zs 0 /\ (2 <= length l)%nat /\
  forall i, (S i < length l)%nat -> Rabs (angle (nth (S i) l 0) - angle (nth i l 0)) <= 2 * PI.
Proof.
  intros S L2 HD Eq Lin Lip l. pose proof PI_RGT_0 as Pi.
  assert (D1 : nth 1 zs 0 - nth 0 zs 0 = D) by (apply Eq; lia).
  assert (TW : twist_of zs angle = Rabs w * D).
  { rewrite (twist_linear zs angle w), D1; [reflexivity|lra|exact Lin]. }
  assert (LA : last zs 0 = nth (length zs - 1) zs 0).
  { clear - L2. destruct zs as [|a zs]; [cbn in L2; lia|]. clear L2. revert a. induction zs as [|b zs IH]; intros a; [reflexivity|].
    change (last (a :: b :: zs) 0) with (last (b :: zs) 0). rewrite IH. cbn [length nth Nat.sub].
    rewrite Nat.sub_0_r. reflexivity. }
  assert (NT : forall k, (k < length zs)%nat -> nth k zs 0 = nth 0 zs 0 + INR k * D).
  { induction k as [|k IH]; intros Hk; [cbn; ring|]. specialize (Eq k Hk). rewrite IH in Eq by lia.
    rewrite S_INR. lra. }
  assert (SP : last zs 0 - nth 0 zs 0 = INR (length zs - 1) * D) by (rewrite LA, NT by lia; ring).
  assert (BZ : forall x, In x zs -> nth 0 zs 0 <= x <= last zs 0).
  { intros x Hx. destruct (In_nth _ _ 0 Hx) as (k & Hk & <-). rewrite (NT k Hk).
    assert (INR k <= INR (length zs - 1)) by (apply le_INR; lia). pose proof (pos_INR k).
    assert (0 <= INR k * D) by (apply Rmult_le_pos; lra).
    assert (INR k * D <= INR (length zs - 1) * D) by (apply Rmult_le_compat_r; lra). lra. }
  assert (N0 : 0 < INR (length zs - 1)) by (apply lt_0_INR; lia).
  unfold l, twist_zvals. destruct (Rlt_dec (2 * PI) (twist_of zs angle)) as [Hw|Hw].
  - set (q := floorZ (twist_of zs angle / (2 * PI))).
    pose proof (floorZ_bound (twist_of zs angle / (2 * PI))) as FB. fold q in FB.
    assert (E2 : twist_of zs angle / (2 * PI) * (2 * PI) = twist_of zs angle) by (field; lra).
    assert (Q1 : (1 <= q)%Z).
    { assert (0 < IZR q) by nra. apply lt_IZR in H. lia. }
    set (n := (Z.to_nat (q * (Z.of_nat (length zs) - 1)) + length zs)%nat).
    assert (Hn : (2 <= n)%nat) by (unfold n; lia).
    assert (NE : INR (n - 1) = (IZR q + 1) * INR (length zs - 1)).
    { unfold n. replace (Z.to_nat (q * (Z.of_nat (length zs) - 1)) + length zs - 1)%nat
        with (Z.to_nat (q * (Z.of_nat (length zs) - 1)) + (length zs - 1))%nat by lia.
      rewrite plus_INR, (INR_IZR_INZ (Z.to_nat _)), Z2Nat.id by nia. rewrite mult_IZR, minus_IZR, <- INR_IZR_INZ.
      rewrite minus_INR by lia. cbn [INR]. ring. }
    set (u := np_unique _).
    assert (SU : StronglySorted Rlt u) by apply np_unique_sorted.
    assert (IU : forall x, In x u <-> In x (np_linspace (nth 0 zs 0) (last zs 0) n) \/ In x zs).
    { intros x. unfold u. rewrite np_unique_In, in_app_iff. reflexivity. }
    assert (LE : nth 0 zs 0 < last zs 0) by nra.
    assert (BU : forall x, In x u -> nth 0 zs 0 <= x <= last zs 0).
    { intros x Hx. apply IU in Hx. destruct Hx as [Hx|Hx]; [|auto]. apply (linspace_bounds _ _ n); [exact Hn|lra|exact Hx]. }
    destruct (linspace_ends (nth 0 zs 0) (last zs 0) n Hn) as (I0 & I1).
    assert (H0 : nth 0 u 0 = nth 0 zs 0).
    { apply sorted_head; [exact SU|apply IU; left; exact I0|intros x Hx; apply BU; exact Hx]. }
    assert (H1 : last u 0 = last zs 0).
    { apply sorted_last; [exact SU|apply IU; left; exact I1|intros x Hx; apply BU; exact Hx]. }
    split; [exact SU|]. split; [intros x Hx; apply IU; right; exact Hx|]. split; [exact H0|]. split; [exact H1|]. split.
    + destruct u as [|a [|b u]]; cbn [length]; [cbn in H0, H1; lra|cbn in H0, H1; lra|lia].
    + intros i Hi. destruct (refined_gap u (nth 0 zs 0) (last zs 0) n i SU Hn LE BU) as (G1 & G2); [intros x Hx; apply IU; left; exact Hx|exact Hi|].
      eapply Rle_trans; [apply Lip|]. rewrite (Rabs_right (_ - _)) by lra.
      rewrite SP, NE in G2. rewrite TW in *.
      assert (G3 : nth (Datatypes.S i) u 0 - nth i u 0 <= D / (IZR q + 1)).
      { replace (D / (IZR q + 1)) with (INR (length zs - 1) * D / ((IZR q + 1) * INR (length zs - 1))); [exact G2|].
        field. apply IZR_le in Q1. lra. }
      apply IZR_le in Q1. pose proof (Rabs_pos w).
      apply Rle_trans with (Rabs w * (D / (IZR q + 1))); [apply Rmult_le_compat_l; lra|].
      apply (Rmult_le_reg_r (IZR q + 1)); [lra|]. 
      replace (Rabs w * (D / (IZR q + 1)) * (IZR q + 1)) with (Rabs w * D) by (field; lra). nra.
  - split; [exact S|]. split; [auto|]. split; [reflexivity|]. split; [reflexivity|]. split; [exact L2|].
    intros i Hi. eapply Rle_trans; [apply Lip|]. rewrite (Eq i Hi), (Rabs_right D) by lra. lra.
Qed.

(** The section list of a helical gear: sorted, from the bottom to the top face, with the mid
    plane of a herringbone gear, and no section turns by more than a full turn. *)
Theorem C70_sections p hb : 0 < ip_teeth p -> 0 < ip_module p -> 0 < ip_height p -> 0 < cos (ip_helix p) ->
  let h := helical_new p hb in
  let zs := k_zvals (ig_core (h_gear h)) in
  let m := k_module (ig_core (h_gear h)) in
  let z_bottom := - (ip_height p / m) * ip_zanchor p in
  let z_top := ip_height p / m * (1 - ip_zanchor p) in
  StronglySorted Rlt zs /\ nth 0 zs 0 = z_bottom /\ last zs 0 = z_top /\
  (hb = true -> In ((z_bottom + z_top) / 2) zs) /\
  forall i, (S i < length zs)%nat -> Rabs (h_angle h (nth (S i) zs 0) - h_angle h (nth i zs 0)) <= 2 * PI.
Proof.
  intros Hn Hm Hh Cb h zs m z_bottom z_top.
  pose proof (helical_normalise p false Hn) as NN.
  assert (Em : m = ip_module p / cos (ip_helix p)).
  { unfold m, h. destruct (helical_core p hb) as (zz & ->). unfold ig_new. rewrite NN. reflexivity. }
  assert (Hmm : 0 < m) by (rewrite Em; apply Rdiv_lt_0_compat; assumption).
  assert (Hz : 0 < ip_height p / m) by (apply Rdiv_lt_0_compat; assumption).
  assert (DZ : z_top - z_bottom = ip_height p / m) by (unfold z_top, z_bottom; ring).
  assert (K0 : k_zvals (ig_core (ig_new (helical_param p false))) = [z_bottom; z_top]).
  { unfold ig_new. rewrite NN. cbn [ig_core calc_params k_zvals helical_param ip_height ip_module ip_zanchor]. rewrite <- Em. reflexivity. }
  set (w := k_spiral (ig_core (ig_new (helical_param p false)))).
  clearbody z_bottom z_top m. destruct hb.
  - set (mid := (z_top + z_bottom) / 2).
    assert (E : zs = twist_zvals [z_bottom; mid; z_top] (fun z => (mid - Rabs (mid - z)) * w) /\
                h_angle h = (fun z => (mid - Rabs (mid - z)) * w)).
    { unfold zs, h, helical_new, herringbone_mod. cbn [h_gear ig_core h_angle with_zvals k_zvals]. unfold k_z_last, k_z_first.
      rewrite K0. cbn [nth last search_left]. fold mid. fold w.
      destruct (Rlt_dec z_bottom mid) as [L|L]; [|unfold mid in L; lra].
      destruct (Rlt_dec z_top mid) as [L2|L2]; [unfold mid in L2; lra|]. split; reflexivity. }
    destruct E as (E1 & E2). rewrite E2, E1. clear E1 E2 zs h. 
    assert (M1 : z_bottom < mid < z_top) by (unfold mid; lra).
    destruct (twist_zvals_spec [z_bottom; mid; z_top] (fun z => (mid - Rabs (mid - z)) * w) w (ip_height p / m / 2)) as (A1 & A2 & A3 & A4 & _ & A5).
    + repeat constructor; lra.
    + cbn; lia.
    + lra.
    + intros [|[|i]] Hi; cbn [length nth] in *; [unfold mid; lra|unfold mid; lra|lia].
    + cbn [nth]. intros z Hz2. rewrite Rabs_right by lra. ring.
    + intros y z. replace ((mid - Rabs (mid - y)) * w - (mid - Rabs (mid - z)) * w) with (w * (Rabs (mid - z) - Rabs (mid - y))) by ring.
      rewrite Rabs_mult. apply Rmult_le_compat_l; [apply Rabs_pos|].
      eapply Rle_trans; [apply Rabs_triang_inv2|]. apply Req_le. f_equal. ring.
    + split; [exact A1|]. split; [exact A3|]. split; [exact A4|]. split; [|exact A5].
      intros _. apply A2. right. left. unfold mid. f_equal. ring.
  - assert (E : zs = twist_zvals [z_bottom; z_top] (fun z => z * w) /\ h_angle h = (fun z => z * w)).
    { unfold zs, h, helical_new. cbn [h_gear ig_core h_angle with_zvals k_zvals]. rewrite K0. fold w. split; reflexivity. }
    destruct E as (E1 & E2). rewrite E2, E1. clear E1 E2 zs h.
    destruct (twist_zvals_spec [z_bottom; z_top] (fun z => z * w) w (ip_height p / m)) as (A1 & A2 & A3 & A4 & _ & A5).
    + repeat constructor; lra.
    + cbn; lia.
    + lra.
    + intros [|i] Hi; cbn [length nth] in *; [lra|lia].
    + reflexivity.
    + intros y z. replace (y * w - z * w) with (w * (y - z)) by ring. rewrite Rabs_mult. lra.
    + split; [exact A1|]. split; [exact A3|]. split; [exact A4|]. split; [discriminate|exact A5].
Qed.

(** HelicalRingGear has no such refinement: sections may turn by any amount. *)
Theorem C70_ring_twist_refuted p : 0 < ip_teeth p -> 0 < ip_module p -> 0 < cos (ip_helix p) -> ip_helix p <> 0 ->
  - PI / 2 < ip_helix p < PI / 2 -> forall bound,
  exists height, 0 < height /\
    let h := helical_ring_new (mkIP (ip_teeth p) height (ip_helix p) (ip_cone p) (ip_center p) (ip_angle p)
      (ip_module p) (ip_undercut p) (ip_root_fillet p) (ip_tip_fillet p) (ip_tip_trunc p)
      (ip_shift p) (ip_add p) (ip_ded p) (ip_alpha p) (ip_backlash p) (ip_crown p) (ip_inside p) (ip_zanchor p)) false in
    let zs := k_zvals (ig_core (h_gear h)) in
    length zs = 2%nat /\ bound < Rabs (h_angle h (nth 1 zs 0) - h_angle h (nth 0 zs 0)).
Proof.
  intros Hn Hm Cb Nb Hb bound.
  set (m := ip_module p / cos (ip_helix p)). assert (Pm : 0 < m) by (apply Rdiv_lt_0_compat; assumption).
  set (w := tan (ip_helix p) / (ip_teeth p / 2)).
  assert (Nw : w <> 0).
  { unfold w. intros Q. apply Nb. apply tan_zero; [exact Hb|].
    apply (f_equal (fun x => x * (ip_teeth p / 2))) in Q. field_simplify in Q; lra. }
  assert (Pw : 0 < Rabs w) by (apply Rabs_pos_lt; exact Nw).
  assert (Ph : 0 < (Rabs bound + 1) * m / Rabs w) by (apply Rdiv_lt_0_compat; [pose proof (Rabs_pos bound); nra|exact Pw]).
  exists ((Rabs bound + 1) * m / Rabs w). split; [exact Ph|]. cbn zeta.
  unfold helical_ring_new. rewrite helical_normalise by (cbn; lra).
  cbn [h_gear ig_core h_angle with_tooth calc_params k_zvals k_spiral helical_param ip_teeth ip_helix ip_height ip_module ip_zanchor nth].
  split; [reflexivity|]. fold m. fold w.
  match goal with |- _ < Rabs ?e => replace e with ((Rabs bound + 1) / Rabs w * w) by (field; lra) end.
  rewrite Rabs_mult. unfold Rdiv. rewrite Rabs_mult, (Rabs_right (/ Rabs w)) by (apply Rle_ge, Rlt_le, Rinv_0_lt_compat, Pw).
  rewrite (Rabs_right (Rabs bound + 1)) by (pose proof (Rabs_pos bound); lra).
  rewrite Rmult_assoc, Rinv_l by lra. pose proof (Rle_abs bound). lra.
Qed.

(** Herringbone gears are mirror symmetric about mid height; the lower half is plain. *)
Theorem C70_herringbone_symmetric p : 0 < ip_teeth p -> 0 < ip_module p -> 0 < ip_height p -> 0 < cos (ip_helix p) ->
  let h := helical_new p true in
  let k := ig_core (h_gear h) in
  let mid := (k_z_first k + k_z_last k) / 2 in
  (forall d, h_angle h (mid + d) = h_angle h (mid - d)) /\
  (forall z, z <= mid -> h_angle h z = h_angle (helical_new p false) z).
Proof.
  intros Hn Hm Hh Cb h k mid.
  destruct (C70_sections p true Hn Hm Hh Cb) as (_ & Z0 & Z1 & _).
  fold h in Z0, Z1. fold k in Z0, Z1.
  pose proof (helical_normalise p false Hn) as NN.
  assert (Em : k_module k = k_module (ig_core (ig_new (helical_param p false)))).
  { unfold k, h. destruct (helical_core p true) as (zz & ->). reflexivity. }
  assert (E : h_angle h = fun z => (mid - Rabs (mid - z)) * k_spiral (ig_core (ig_new (helical_param p false)))).
  { unfold mid, k_z_first, k_z_last. rewrite Z0, Z1, Em. unfold h, helical_new, herringbone_mod. cbn [h_angle].
    unfold k_z_first, k_z_last, ig_new. rewrite NN.
    cbn [ig_core calc_params k_zvals k_module helical_param ip_height ip_module ip_zanchor nth last].
    set (a := - (ip_height p / (ip_module p / cos (ip_helix p))) * ip_zanchor p).
    set (b := ip_height p / (ip_module p / cos (ip_helix p)) * (1 - ip_zanchor p)).
    rewrite (Rplus_comm b a). reflexivity. }
  rewrite E. cbn beta. split.
  - intros d. f_equal. f_equal. replace (mid - (mid + d)) with (- (mid - (mid - d))) by ring. apply Rabs_Ropp.
  - intros z Hz. rewrite Rabs_right by lra. cbn. ring.
Qed.

Lemma helical_new_gear p hb n : ip_teeth p = IZR n -> (0 < n)%Z -> 0 < ip_module p -> 0 < cos (ip_helix p) ->
  helical_gear (h_gear (helical_new p hb)) n (ip_helix p) /\
  inside_teeth (k_tooth (ig_core (h_gear (helical_new p hb)))) = false.
Proof.
  intros Ht Hn Hm Cb. assert (Hn' : 0 < IZR n) by (apply IZR_lt; exact Hn).
  pose proof (helical_normalise p false ltac:(lra)) as NN.
  destruct (helical_core p hb) as (zs & E). 
  assert (EI : ig_in (h_gear (helical_new p hb)) = helical_param p false) by (rewrite helical_in; exact NN).
  assert (TP : tp_make (ip_teeth p) 0 false = mkTP (IZR n) 0 false) by (rewrite Ht; apply tp_make_pos; lra).
  split; [split|]; rewrite ?E, ?EI; unfold ig_new; rewrite ?NN; cbn -[tp_make cos tan PI]; rewrite ?TP; cbn -[cos tan PI]; try assumption; try reflexivity; try lra;
    try (rewrite Ht; reflexivity); try (apply Rdiv_lt_0_compat; assumption); apply rotation_I.
Qed.

Lemma helical_ring_gear p hb n : ip_teeth p = IZR n -> (0 < n)%Z -> 0 < ip_module p -> 0 < cos (ip_helix p) ->
  helical_gear (h_gear (helical_ring_new p hb)) n (ip_helix p) /\
  inside_teeth (k_tooth (ig_core (h_gear (helical_ring_new p hb)))) = true.
Proof.
  intros Ht Hn Hm Cb. assert (Hn' : 0 < IZR n) by (apply IZR_lt; exact Hn).
  pose proof (helical_normalise p true ltac:(lra)) as NN.
  assert (TP : tp_make (ip_teeth p) 0 true = mkTP (IZR n) 0 true) by (rewrite Ht; apply tp_make_pos; lra).
  unfold helical_ring_new. rewrite NN.
  destruct hb; (split; [split|]; cbn -[tp_make cos tan PI]; rewrite ?TP; cbn -[cos tan PI]; try assumption; try reflexivity; try lra;
    try (rewrite Ht; reflexivity); try (apply Rdiv_lt_0_compat; assumption); apply rotation_I).
Qed.

(** ** C71 *)
Lemma tangents_cross z u s1 s2 t1 t2 B : dot z z = 1 -> dot u u = 1 -> dot z u = 0 ->
  let R := rodrigues u B in let e := cross z u in
  cross (smul s1 (vadd (mapp R z) (smul t1 (mapp R e)))) (smul s2 (vadd z (smul t2 e))) =
  smul (s1 * s2 * ((t1 * cos B - sin B) - t2 * (cos B + t1 * sin B))) u.
Proof.
  intros Z U ZU R e. unfold R. rewrite !mapp_rodrigues.
  replace (dot u z) with 0 by (rewrite dot_comm; auto).
  replace (dot u e) with 0 by (unfold e; clear; revert z u; vec_ring).
  assert (UE : cross u e = z).
  { unfold e. replace (cross u (cross z u)) with (vsub (smul (dot u u) z) (smul (dot z u) u)) by (clear; revert z u; vec_ring).
    rewrite U, ZU. clear. revert z u; vec_ring. }
  assert (UZ : cross u z = vopp e) by (unfold e; clear; revert z u; vec_ring).
  assert (ZE : cross z e = vopp u).
  { unfold e. replace (cross z (cross z u)) with (vsub (smul (dot z u) z) (smul (dot z z) u)) by (clear; revert z u; vec_ring).
    rewrite Z, ZU. clear. revert z u; vec_ring. }
  rewrite UE, UZ.
  transitivity (smul (s1 * s2 * ((cos B + t1 * sin B) * t2 - (t1 * cos B - sin B))) (cross z e)).
  - clear UE UZ ZE. clearbody e. clear Z U ZU R. generalize (cos B) (sin B). revert z u e. vec_ring.
  - rewrite ZE. clear. generalize (cos B) (sin B). revert u. vec_ring.
Qed.

Lemma derives_unique f z a b : derives f z a -> derives f z b -> a = b.
Proof.
  intros (A1 & A2 & A3) (B1 & B2 & B3). apply vec_eq; eapply uniqueness_limite; eassumption.
Qed.

Lemma col3_mapp O : col3 O = mapp O OUT. Proof. vec_ring. Qed.

Lemma dir'_cross O a : rotation O -> dir' O a = cross (col3 O) (dir O a).
Proof.
  intros H. unfold dir, dir'. rewrite col3_mapp, <- rotation_cross by exact H. f_equal. apply vec_eq; vec_simpl; ring.
Qed.

(** The tangent of the tooth line through the pitch point in direction [d]. *)
Definition tooth_tangent (g : igear) (d t : vec) : Prop :=
  exists phi, dir (g_orient (k_trf (ig_core g))) (g_angle (k_trf (ig_core g)) + phi) = d /\
    derives (tooth_line g (fun x => x * k_spiral (ig_core g)) phi) 0 t.

Lemma tooth_tangent_eq g n beta d t : helical_gear g n beta -> tooth_tangent g d t ->
  t = smul (g_scale (k_trf (ig_core g))) (vadd (g_z_axis (k_trf (ig_core g)))
        (smul (tan beta) (cross (g_z_axis (k_trf (ig_core g))) d))).
Proof.
  intros H (phi & D & E).
  pose proof (C70_helix_angle g n beta phi 0 H) as Q. cbn zeta in Q.
  rewrite Rmult_0_l, Rplus_0_r in Q. rewrite (derives_unique _ _ _ _ E Q).
  rewrite dir'_cross by apply (hg_rot _ _ _ H). rewrite D. reflexivity.
Qed.

(** What InvoluteGear.mesh_to does to helical gears. *)
Lemma planar_mesh_shape g o n1 n2 b1 b2 sg so a target bl bias g1 :
  helical_gear g n1 b1 -> helical_gear o n2 b2 ->
  ig_mesh_to g o sg so a target bl bias = Ok g1 ->
  helical_gear g1 n1 b1 /\ g_orient (k_trf (ig_core g1)) = g_orient (k_trf (ig_core o)) /\
  k_tooth (ig_core g1) = k_tooth (ig_core g) /\
  exists l, vsub (g_center (k_trf (ig_core g1))) (g_center (k_trf (ig_core o))) = smul l target.
Proof.
  intros H1 H2. unfold ig_mesh_to. 
  destruct (normalize_r target) as [t|] eqn:Et; cbn [bind]; [|discriminate].
  rewrite (hg_cone _ _ _ H1), (hg_cone _ _ _ H2). destruct (Req_EM_T 0 0) as [_|N]; [|lra].
  intros Q. injection Q as <-.
  split; [split|split; [|split]]; cbn [ig_place ig_core ig_in with_trf k_tooth k_rp k_gamma k_cone k_spiral k_trf g_scale g_orient g_center];
    try apply H1; try apply H2; try reflexivity.
  unfold normalize_r in Et. destruct (Req_EM_T (norm target) 0); [discriminate|]. injection Et as <-.
  unfold normalize. set (dd := mesh_dist _ _ _ _). clearbody dd.
  exists (dd * / norm target). generalize (/ norm target) (g_center (k_trf (ig_core o))). clear. revert target. vec_ring.
Qed.

(** Unit vector from the centre of the placed gear to the other centre. *)
Definition centre_dir (g o : igear) (u : vec) : Prop :=
  norm u = 1 /\ exists l, 0 < l /\ vsub (g_center (k_trf (ig_core o))) (g_center (k_trf (ig_core g))) = smul l u.

Lemma helical_mesh_shape g o n1 n2 b1 b2 sg so a target h' :
  helical_gear (h_gear g) n1 b1 -> helical_gear (h_gear o) n2 b2 ->
  helical_mesh_to g o sg so a target = Ok h' ->
  dot target (g_z_axis (k_trf (ig_core (h_gear o)))) = 0 ->
  exists g1 u, ig_mesh_to (h_gear g) (h_gear o) sg so a target 0 0 = Ok g1 /\
    centre_dir (h_gear h') (h_gear o) u /\ dot u (g_z_axis (k_trf (ig_core (h_gear o)))) = 0 /\
    k_trf (ig_core (h_gear h')) = mkG (g_center (k_trf (ig_core g1)))
      (mmul (rodrigues u (b1 + b2)) (g_orient (k_trf (ig_core (h_gear o))))) (g_scale (k_trf (ig_core g1))) (g_angle (k_trf (ig_core g1))) /\
    helical_gear (h_gear h') n1 b1 /\ helical_gear g1 n1 b1 /\ g_orient (k_trf (ig_core g1)) = g_orient (k_trf (ig_core (h_gear o))) /\
    k_tooth (ig_core (h_gear h')) = k_tooth (ig_core (h_gear g)) /\ h_angle h' = h_angle g.
Proof.
  intros H1 H2. unfold helical_mesh_to.
  destruct (ig_mesh_to (h_gear g) (h_gear o) sg so a target 0 0) as [g1|] eqn:E1; cbn [bind]; [|discriminate].
  destruct (planar_mesh_shape _ _ _ _ _ _ _ _ _ _ _ _ _ H1 H2 E1) as (H1' & OR & TO & l & CE).
  set (D := vsub (g_center (k_trf (ig_core (h_gear o)))) (g_center (k_trf (ig_core g1)))).
  destruct (normalize_r D) as [u|] eqn:Eu; cbn [bind]; [|discriminate].
  intros Q TZ. injection Q as <-.
  pose proof (normalize_r_norm _ _ Eu) as Nu.
  assert (DU : D = smul (norm D) u /\ 0 < norm D).
  { unfold normalize_r in Eu. destruct (Req_EM_T (norm D) 0) as [|N0]; [discriminate|]. injection Eu as <-.
    unfold normalize. rewrite smul_smul, Rinv_r, smul_1 by exact N0. split; [reflexivity|]. pose proof (norm_nonneg D). lra. }
  destruct DU as (DU & PD).
  exists g1, u. cbn [h_gear ig_place ig_core ig_in with_trf k_trf k_tooth h_angle].
  rewrite (hg_beta _ _ _ H1'), (hg_beta _ _ _ H2), OR, from_rotvec_axis by exact Nu.
  repeat split; try apply H1'; try assumption.
  - exists (norm D). split; [exact PD|exact DU].
  - assert (DZ : dot D (g_z_axis (k_trf (ig_core (h_gear o)))) = 0).
    { replace D with (smul (-1) (vsub (g_center (k_trf (ig_core g1))) (g_center (k_trf (ig_core (h_gear o))))))
        by (unfold D; generalize (g_center (k_trf (ig_core g1))) (g_center (k_trf (ig_core (h_gear o)))); clear; vec_ring).
      rewrite CE, smul_smul, dot_smul_l, TZ. ring. }
    rewrite DU, dot_smul_l in DZ. apply Rmult_integral in DZ. destruct DZ; [lra|assumption].
  - exact (proj1 (rotation_mmul _ _ (rotation_rodrigues u (b1 + b2) Nu) (hg_rot _ _ _ H2))).
  - exact (proj2 (rotation_mmul _ _ (rotation_rodrigues u (b1 + b2) Nu) (hg_rot _ _ _ H2))).
Qed.

(** The gear is tilted about the line of centres by the sum of the helix angles; centre and
    angle are those of InvoluteGear.mesh_to. *)
Theorem C71_tilt g o n1 n2 b1 b2 sg so a target h' :
  helical_gear (h_gear g) n1 b1 -> helical_gear (h_gear o) n2 b2 ->
  helical_mesh_to g o sg so a target = Ok h' ->
  dot target (g_z_axis (k_trf (ig_core (h_gear o)))) = 0 ->
  exists g1 u, ig_mesh_to (h_gear g) (h_gear o) sg so a target 0 0 = Ok g1 /\ centre_dir (h_gear h') (h_gear o) u /\
    let T' := k_trf (ig_core (h_gear h')) in let T1 := k_trf (ig_core g1) in
    let z := g_z_axis (k_trf (ig_core (h_gear o))) in
    g_center T' = g_center T1 /\ g_angle T' = g_angle T1 /\ g_scale T' = g_scale T1 /\ rotation (g_orient T') /\
    g_z_axis T' = vadd (smul (cos (b1 + b2)) z) (smul (sin (b1 + b2)) (cross u z)) /\
    dot (g_z_axis T') z = cos (b1 + b2) /\
    (forall n d, d = u \/ d = vopp u -> (tooth_at T' n d <-> tooth_at T1 n d) /\ (gap_at T' n d <-> gap_at T1 n d)).
Proof.
  intros H1 H2 Q TZ.
  destruct (helical_mesh_shape _ _ _ _ _ _ _ _ _ _ _ H1 H2 Q TZ) as (g1 & u & E1 & CD & UZ & TT & HH & HG1 & OR & _).
  exists g1, u. split; [exact E1|]. split; [exact CD|]. cbn zeta.
  pose proof (hg_rot _ _ _ HH) as RH. rewrite TT in *. cbn [g_center g_angle g_scale g_orient] in *.
  set (O2 := g_orient (k_trf (ig_core (h_gear o)))) in *.
  assert (HO2 : rotation O2) by apply H2.
  destruct CD as (Nu & _).
  assert (UU : dot u u = 1) by (rewrite <- norm_sqr, Nu; ring).
  assert (ZZ : dot (g_z_axis (k_trf (ig_core (h_gear o)))) (g_z_axis (k_trf (ig_core (h_gear o)))) = 1) by (apply col3_unit, HO2).
  assert (ZA : g_z_axis (mkG (g_center (k_trf (ig_core g1))) (mmul (rodrigues u (b1 + b2)) O2) (g_scale (k_trf (ig_core g1))) (g_angle (k_trf (ig_core g1)))) =
    vadd (smul (cos (b1 + b2)) (g_z_axis (k_trf (ig_core (h_gear o))))) (smul (sin (b1 + b2)) (cross u (g_z_axis (k_trf (ig_core (h_gear o))))))).
  { unfold g_z_axis at 1. cbn [g_orient]. rewrite col3_mapp, mapp_mmul, <- col3_mapp. fold O2. change (col3 O2) with (g_z_axis (k_trf (ig_core (h_gear o)))).
    rewrite mapp_rodrigues, UZ. generalize (g_z_axis (k_trf (ig_core (h_gear o)))) (cos (b1 + b2)) (sin (b1 + b2)). clear. revert u. vec_ring. }
  split; [reflexivity|]. split; [reflexivity|]. split; [reflexivity|]. split; [exact RH|]. split; [exact ZA|].
  split.
  - rewrite ZA, dot_vadd_l, !dot_smul_l, ZZ.
    replace (dot (cross u (g_z_axis (k_trf (ig_core (h_gear o))))) (g_z_axis (k_trf (ig_core (h_gear o))))) with 0
      by (generalize (g_z_axis (k_trf (ig_core (h_gear o)))); clear; revert u; vec_ring). ring.
  - intros n d Hd.
    assert (PU : mapp (rodrigues u (b1 + b2)) d = d).
    { destruct Hd as [->| ->]; [apply rodrigues_axis, Nu|].
      replace (vopp u) with (smul (-1) u) by (clear; revert u; vec_ring). rewrite mapp_smul, rodrigues_axis by exact Nu. reflexivity. }
    assert (DZ : dot d (g_z_axis (k_trf (ig_core (h_gear o)))) = 0).
    { destruct Hd as [->| ->]; [exact UZ|]. replace (vopp u) with (smul (-1) u) by (clear; revert u; vec_ring). rewrite dot_smul_l, UZ. ring. }
    set (R := rodrigues u (b1 + b2)) in *.
    assert (HR : rotation R) by (apply rotation_rodrigues, Nu).
    assert (PP : forall aa, points_at (mkG (g_center (k_trf (ig_core g1))) (mmul R O2) (g_scale (k_trf (ig_core g1))) (g_angle (k_trf (ig_core g1)))) aa d
                 <-> points_at (k_trf (ig_core g1)) aa d).
    { intros aa. unfold points_at. unfold g_z_axis. cbn [g_orient]. rewrite OR. fold O2. unfold dir.
      assert (P1 : project_plane d (col3 O2) = d).
      { unfold project_plane. change (dot d (g_z_axis (k_trf (ig_core (h_gear o)))) = 0) in DZ. change (col3 O2) with (g_z_axis (k_trf (ig_core (h_gear o)))).
        rewrite ?DZ. clear - DZ. generalize dependent (g_z_axis (k_trf (ig_core (h_gear o)))). intros z DZ.
        rewrite ?DZ. revert DZ. destruct d, z. intros. apply vec_eq; vec_simpl; nra. }
      assert (P2 : project_plane d (col3 (mmul R O2)) = d).
      { assert (E0 : dot d (col3 (mmul R O2)) = 0).
        { rewrite col3_mapp, mapp_mmul, <- col3_mapp, <- PU, orthogonal_dot by apply HR. exact DZ. }
        unfold project_plane. rewrite ?E0. clear - E0. generalize dependent (col3 (mmul R O2)). intros z DZ.
        rewrite ?DZ. revert DZ. destruct d, z. intros. apply vec_eq; vec_simpl; nra. }
      rewrite P1, P2. rewrite mapp_mmul.
      split; intros (l & Hl & E); exists l; (split; [exact Hl|]).
      - apply (orthogonal_inj R); [apply HR|]. rewrite mapp_smul, <- E. exact PU.
      - rewrite <- mapp_smul, <- E. symmetry. exact PU. }
    unfold tooth_at, gap_at. cbn [g_angle].
    split; split; intros (k & K); exists k; apply PP; exact K.
Qed.

Lemma centre_dir_unique g o u v : centre_dir g o u -> centre_dir g o v -> u = v.
Proof.
  intros (N1 & l & L & E1) (N2 & k & K & E2). rewrite E1 in E2.
  apply (f_equal normalize) in E2. rewrite !normalize_smul in E2 by assumption. exact E2.
Qed.

Lemma tan_cos b : 0 < cos b -> tan b * cos b = sin b.
Proof. intros H. unfold tan. field. lra. Qed.

(** Cross product of the tooth tangents at the pitch point: direction [s1 * u] seen from the
    moved gear, [s2 * u] from the other one. *)
Lemma helical_tangents g o n1 n2 b1 b2 sg so a target h' u s1 s2 t1 t2 :
  helical_gear (h_gear g) n1 b1 -> helical_gear (h_gear o) n2 b2 ->
  helical_mesh_to g o sg so a target = Ok h' ->
  dot target (g_z_axis (k_trf (ig_core (h_gear o)))) = 0 ->
  centre_dir (h_gear h') (h_gear o) u -> (s1 = 1 \/ s1 = -1) -> (s2 = 1 \/ s2 = -1) ->
  tooth_tangent (h_gear h') (smul s1 u) t1 -> tooth_tangent (h_gear o) (smul s2 u) t2 ->
  exists k, 0 < k /\ cross t1 t2 = smul (k * sin (s1 * b1 - s2 * b2 - (b1 + b2))) u /\ dot u u = 1.
Proof.
  intros H1 H2 Q TZ CD S1 S2 T1 T2.
  destruct (helical_mesh_shape _ _ _ _ _ _ _ _ _ _ _ H1 H2 Q TZ) as (g1 & u' & E1 & CD' & UZ & TT & HH & _).
  rewrite (centre_dir_unique _ _ _ _ CD' CD) in *. clear u' CD'.
  pose proof (hg_rot _ _ _ HH) as RH.
  rewrite (tooth_tangent_eq _ _ _ _ _ HH T1), (tooth_tangent_eq _ _ _ _ _ H2 T2).
  pose proof (hg_scale _ _ _ HH) as P1. pose proof (hg_scale _ _ _ H2) as P2.
  pose proof (hg_steep _ _ _ HH) as C1. pose proof (hg_steep _ _ _ H2) as C2.
  destruct CD as (Nu & _).
  assert (UU : dot u u = 1) by (rewrite <- norm_sqr, Nu; ring).
  set (z := g_z_axis (k_trf (ig_core (h_gear o)))) in *.
  assert (ZZ : dot z z = 1) by (apply col3_unit, H2).
  set (R := rodrigues u (b1 + b2)) in *. assert (HR : rotation R) by (apply rotation_rodrigues, Nu).
  assert (ZA : g_z_axis (k_trf (ig_core (h_gear h'))) = mapp R z).
  { rewrite TT. unfold g_z_axis at 1. cbn [g_orient]. rewrite col3_mapp, mapp_mmul, <- col3_mapp. reflexivity. }
  rewrite ZA.
  assert (CE : cross (mapp R z) (smul s1 u) = smul s1 (mapp R (cross z u))).
  { rewrite rotation_cross by exact HR. replace (mapp R u) with u by (symmetry; apply rodrigues_axis, Nu).
    generalize (mapp R z). clear. revert u. vec_ring. }
  rewrite CE. replace (cross z (smul s2 u)) with (smul s2 (cross z u)) by (clear; clearbody z; revert z u; vec_ring).
  rewrite !smul_smul.
  unfold R. rewrite tangents_cross by (try assumption; rewrite dot_comm; assumption).
  set (q1 := g_scale (k_trf (ig_core (h_gear h')))) in *. set (q2 := g_scale (k_trf (ig_core (h_gear o)))) in *.
  exists (q1 * q2 / (cos b1 * cos b2)). split; [apply Rdiv_lt_0_compat; apply Rmult_lt_0_compat; assumption|]. split; [|exact UU].
  f_equal. unfold tan.
  assert (ES1 : sin (s1 * b1) = s1 * sin b1 /\ cos (s1 * b1) = cos b1).
  { destruct S1 as [->| ->]; [rewrite !Rmult_1_l; auto|]. replace (-1 * b1) with (- b1) by ring. rewrite sin_neg, cos_neg. lra. }
  assert (ES2 : sin (s2 * b2) = s2 * sin b2 /\ cos (s2 * b2) = cos b2).
  { destruct S2 as [->| ->]; [rewrite !Rmult_1_l; auto|]. replace (-1 * b2) with (- b2) by ring. rewrite sin_neg, cos_neg. lra. }
  destruct ES1 as (A1 & A2). destruct ES2 as (B1 & B2).
  rewrite (sin_minus (s1 * b1 - s2 * b2)), (sin_minus (s1 * b1)), (cos_minus (s1 * b1)), A1, A2, B1, B2.
  clear - C1 C2. generalize (cos (b1 + b2)) (sin (b1 + b2)). intros cb sb. field. lra.
Qed.

Lemma smul_zero_iff k u : dot u u = 1 -> smul k u = ORIGIN <-> k = 0.
Proof.
  intros H. split; intros E; [|rewrite E; apply smul_0].
  apply (f_equal (fun v => dot v u)) in E. rewrite dot_smul_l, H in E.
  replace (dot ORIGIN u) with 0 in E by (clear; revert u; vec_ring). lra.
Qed.

Lemma tangent_nonzero g n b d t : helical_gear g n b -> tooth_tangent g d t -> t <> ORIGIN.
Proof.
  intros H T E. pose proof (tooth_tangent_eq _ _ _ _ _ H T) as Q. rewrite E in Q.
  apply (f_equal (fun v => dot v (g_z_axis (k_trf (ig_core g))))) in Q.
  rewrite dot_smul_l, dot_vadd_l, dot_smul_l in Q.
  assert (Z1 : dot (g_z_axis (k_trf (ig_core g))) (g_z_axis (k_trf (ig_core g))) = 1) by apply col3_unit, H. rewrite Z1 in Q.
  replace (dot (cross (g_z_axis (k_trf (ig_core g))) d) (g_z_axis (k_trf (ig_core g)))) with 0 in Q
    by (generalize (g_z_axis (k_trf (ig_core g))); clear; revert d; vec_ring).
  replace (dot ORIGIN (g_z_axis (k_trf (ig_core g)))) with 0 in Q
    by (generalize (g_z_axis (k_trf (ig_core g))); clear; vec_ring).
  pose proof (hg_scale _ _ _ H). nra.
Qed.

(** External pairs: after meshing, the tooth of one gear and the gap of the other run in the
    same direction at the pitch point, whatever the helix angles (crossed helical gears). *)
Theorem C71_tooth_lines_agree g o n1 n2 b1 b2 sg so a target h' u t1 t2 :
  helical_gear (h_gear g) n1 b1 -> helical_gear (h_gear o) n2 b2 ->
  helical_mesh_to g o sg so a target = Ok h' ->
  dot target (g_z_axis (k_trf (ig_core (h_gear o)))) = 0 ->
  centre_dir (h_gear h') (h_gear o) u ->
  tooth_tangent (h_gear h') u t1 -> tooth_tangent (h_gear o) (vopp u) t2 ->
  cross t1 t2 = ORIGIN /\ t1 <> ORIGIN /\ t2 <> ORIGIN.
Proof.
  intros H1 H2 Q TZ CD T1 T2.
  destruct (helical_mesh_shape _ _ _ _ _ _ _ _ _ _ _ H1 H2 Q TZ) as (g1 & u' & _ & _ & _ & _ & HH & _).
  split; [|split; [exact (tangent_nonzero _ _ _ _ _ HH T1)|exact (tangent_nonzero _ _ _ _ _ H2 T2)]].
  replace u with (smul 1 u) in T1 by apply smul_1.
  replace (vopp u) with (smul (-1) u) in T2 by (clear; revert u; vec_ring).
  destruct (helical_tangents _ _ _ _ _ _ _ _ _ _ _ _ _ _ _ _ H1 H2 Q TZ CD (or_introl eq_refl) (or_intror eq_refl) T1 T2) as (k & _ & E & _).
  rewrite E. replace (1 * b1 - -1 * b2 - (b1 + b2)) with 0 by ring. rewrite sin_0, Rmult_0_r. apply smul_0.
Qed.

(** For gears straight from the constructor. *)
Corollary C71_new_gears p q hb hb' n1 n2 sg so a target h' u t1 t2 :
  ip_teeth p = IZR n1 -> (0 < n1)%Z -> 0 < ip_module p -> 0 < cos (ip_helix p) ->
  ip_teeth q = IZR n2 -> (0 < n2)%Z -> 0 < ip_module q -> 0 < cos (ip_helix q) ->
  let g := helical_new p hb in let o := helical_new q hb' in
  helical_mesh_to g o sg so a target = Ok h' ->
  dot target (g_z_axis (k_trf (ig_core (h_gear o)))) = 0 ->
  centre_dir (h_gear h') (h_gear o) u ->
  tooth_tangent (h_gear h') u t1 -> tooth_tangent (h_gear o) (vopp u) t2 ->
  cross t1 t2 = ORIGIN /\ t1 <> ORIGIN /\ t2 <> ORIGIN.
Proof.
  intros A1 A2 A3 A4 B1 B2 B3 B4 g o.
  destruct (helical_new_gear p hb n1 A1 A2 A3 A4) as (H1 & _). destruct (helical_new_gear q hb' n2 B1 B2 B3 B4) as (H2 & _).
  apply (C71_tooth_lines_agree g o n1 n2 (ip_helix p) (ip_helix q)); assumption.
Qed.

(** ** C77: a helical pinion in a helical ring *)
(** [HelicalGear.mesh_to] applies the same tilt for a ring; the teeth touch on the side away
    from the ring's centre. *)
Theorem C77_tangent_iff g o n1 n2 b1 b2 sg so a target h' u t1 t2 :
  helical_gear (h_gear g) n1 b1 -> helical_gear (h_gear o) n2 b2 ->
  helical_mesh_to g o sg so a target = Ok h' ->
  dot target (g_z_axis (k_trf (ig_core (h_gear o)))) = 0 ->
  centre_dir (h_gear h') (h_gear o) u ->
  tooth_tangent (h_gear h') (vopp u) t1 -> tooth_tangent (h_gear o) (vopp u) t2 ->
  - PI / 2 < b1 < PI / 2 ->
  (cross t1 t2 = ORIGIN <-> b1 = 0).
Proof.
  intros H1 H2 Q TZ CD T1 T2 B1.
  replace (vopp u) with (smul (-1) u) in T1, T2 by (clear; revert u; vec_ring).
  destruct (helical_tangents _ _ _ _ _ _ _ _ _ _ _ _ _ _ _ _ H1 H2 Q TZ CD (or_intror eq_refl) (or_intror eq_refl) T1 T2) as (k & K & E & UU).
  rewrite E, smul_zero_iff by exact UU. replace (-1 * b1 - -1 * b2 - (b1 + b2)) with (- (2 * b1)) by ring.
  rewrite sin_neg. split.
  - intros S. assert (S0 : sin (2 * b1) = 0) by nra. apply sin_eq_0_0 in S0. destruct S0 as (j & J).
    pose proof PI_RGT_0. assert (j = 0)%Z as ->; [|lra].
    assert (-1 < IZR j) by nra. assert (IZR j < 1) by nra.
    change (-1) with (IZR (-1)) in H0. change 1 with (IZR 1) in H3. apply lt_IZR in H0. apply lt_IZR in H3. lia.
  - intros ->. rewrite Rmult_0_r, sin_0. ring.
Qed.

(** Its axis stays parallel to the ring's only for opposite helix angles. *)
Theorem C77_parallel_iff g o n1 n2 b1 b2 sg so a target h' :
  helical_gear (h_gear g) n1 b1 -> helical_gear (h_gear o) n2 b2 ->
  helical_mesh_to g o sg so a target = Ok h' ->
  dot target (g_z_axis (k_trf (ig_core (h_gear o)))) = 0 ->
  - PI / 2 < b1 < PI / 2 -> - PI / 2 < b2 < PI / 2 ->
  (g_z_axis (k_trf (ig_core (h_gear h'))) = g_z_axis (k_trf (ig_core (h_gear o))) <-> b1 + b2 = 0).
Proof.
  intros H1 H2 Q TZ B1 B2.
  destruct (C71_tilt _ _ _ _ _ _ _ _ _ _ _ H1 H2 Q TZ) as (g1 & u & _ & _ & _ & _ & _ & _ & ZA & DZ & _).
  split.
  - intros E. rewrite E in DZ. assert (Z1 : dot (g_z_axis (k_trf (ig_core (h_gear o)))) (g_z_axis (k_trf (ig_core (h_gear o)))) = 1) by apply col3_unit, H2.
    rewrite Z1 in DZ. symmetry in DZ. pose proof PI_RGT_0.
    destruct (Req_dec (b1 + b2) 0) as [|N]; [assumption|exfalso].
    pose proof (sc1 (b1 + b2)) as SC. rewrite DZ in SC. assert (S0 : sin (b1 + b2) = 0) by nra.
    apply sin_eq_0_0 in S0. destruct S0 as (j & J).
    assert (-1 < IZR j) by nra. assert (IZR j < 1) by nra.
    change (-1) with (IZR (-1)) in H0. change 1 with (IZR 1) in H3. apply lt_IZR in H0. apply lt_IZR in H3.
    assert (j = 0)%Z as -> by lia. lra.
  - intros E. rewrite ZA, E, cos_0, sin_0, smul_1, smul_0. apply vadd_0_r.
Qed.

(** The documented use (docstring of HelicalRingGear: equal helix angles): never right. *)
Corollary C77_documented_use_refuted g o n1 n2 b sg so a target h' u t1 t2 :
  helical_gear (h_gear g) n1 b -> helical_gear (h_gear o) n2 b ->
  helical_mesh_to g o sg so a target = Ok h' ->
  dot target (g_z_axis (k_trf (ig_core (h_gear o)))) = 0 ->
  centre_dir (h_gear h') (h_gear o) u ->
  tooth_tangent (h_gear h') (vopp u) t1 -> tooth_tangent (h_gear o) (vopp u) t2 ->
  - PI / 2 < b < PI / 2 -> b <> 0 ->
  g_z_axis (k_trf (ig_core (h_gear h'))) <> g_z_axis (k_trf (ig_core (h_gear o))) /\ cross t1 t2 <> ORIGIN.
Proof.
  intros H1 H2 Q TZ CD T1 T2 B N. split; intros E.
  - apply (C77_parallel_iff _ _ _ _ _ _ _ _ _ _ _ H1 H2 Q TZ B B) in E. lra.
  - apply (C77_tangent_iff _ _ _ _ _ _ _ _ _ _ _ _ _ _ H1 H2 Q TZ CD T1 T2 B) in E. lra.
Qed.

(** Meshing the other way round (the ring is moved, InvoluteGear.mesh_to) is right exactly for
    equal helix angles. *)
Theorem C77_ring_moved g o n1 n2 b1 b2 sg so a target bl bias g' d t1 t2 :
  helical_gear g n1 b1 -> helical_gear o n2 b2 ->
  ig_mesh_to g o sg so a target bl bias = Ok g' -> norm d = 1 ->
  tooth_tangent g' d t1 -> tooth_tangent o d t2 ->
  - PI / 2 < b1 < PI / 2 -> - PI / 2 < b2 < PI / 2 ->
  g_z_axis (k_trf (ig_core g')) = g_z_axis (k_trf (ig_core o)) /\ (cross t1 t2 = ORIGIN <-> b1 = b2).
Proof.
  intros H1 H2 Q ND T1 T2 B1 B2.
  destruct (planar_mesh_shape _ _ _ _ _ _ _ _ _ _ _ _ _ H1 H2 Q) as (HH & OR & _ & _).
  assert (ZA : g_z_axis (k_trf (ig_core g')) = g_z_axis (k_trf (ig_core o))) by (unfold g_z_axis; rewrite OR; reflexivity).
  split; [exact ZA|].
  rewrite (tooth_tangent_eq _ _ _ _ _ HH T1), (tooth_tangent_eq _ _ _ _ _ H2 T2), ZA.
  set (z := g_z_axis (k_trf (ig_core o))).
  assert (DZ : dot z d = 0).
  { destruct T2 as (phi & <- & _). rewrite dot_comm. apply dir_z, H2. }
  assert (DD : dot d d = 1) by (rewrite <- norm_sqr, ND; ring).
  assert (ZZ : dot z z = 1) by (apply col3_unit, H2).
  pose proof (hg_scale _ _ _ HH) as P1. pose proof (hg_scale _ _ _ H2) as P2.
  set (q1 := g_scale (k_trf (ig_core g'))) in *. set (q2 := g_scale (k_trf (ig_core o))) in *.
  assert (RI : rodrigues d 0 = UNIT3X3) by (apply mat_eq; vec_simpl; rewrite ?cos_0, ?sin_0; ring).
  pose proof (tangents_cross z d q1 q2 (tan b1) (tan b2) 0 ZZ DD DZ) as C. cbn zeta in C.
  rewrite RI, !mapp_I, cos_0, sin_0 in C. rewrite C, smul_zero_iff by exact DD.
  assert (0 < q1 * q2) by (apply Rmult_lt_0_compat; assumption). split.
  - intros E. apply tan_inj; try lra. nra.
  - intros ->. ring.
Qed.

(** ** Concrete gears *)
Lemma helical_r_base g n b : helical_gear g n b ->
  ig_r_base g = Rabs (g_scale (k_trf (ig_core g)) * base_radius_of (k_rp (ig_core g)) (k_alpha (ig_core g))).
Proof.
  intros H. unfold ig_r_base, ig_base_circle_radius, apply_gear_transform.
  set (r := base_radius_of _ _). set (T := k_trf (ig_core g)).
  cbn [g_mul k_slice g_center g_orient g_scale g_angle]. fold T. rewrite !vmat_mtrans, mmul_I_r.
  rewrite (hg_gamma _ _ _ H), (hg_num _ _ _ H), sin_0.
  match goal with |- norm (vsub (vadd (smul ?k (mapp ?O (mapp ?Z ?p))) ?c) (vadd (smul ?k (mapp ?O (mapp ?Z ?q))) ?c)) = _ =>
    replace (vsub (vadd (smul k (mapp O (mapp Z p))) c) (vadd (smul k (mapp O (mapp Z q))) c))
      with (smul (k * r) (mapp O (mapp Z RIGHT)))
  end.
  - rewrite norm_smul, orthogonal_norm by apply H. rewrite orthogonal_norm by apply rotation_rotz.
    replace (norm RIGHT) with 1 by (symmetry; apply norm_eq; [lra|vec_simpl; ring]). rewrite Rmult_1_r. f_equal.
    pose proof (IZR_lt _ _ (hg_n _ _ _ H)). field. lra.
  - rewrite mapp_ORIGIN, mapp_ORIGIN, !mapp_smul.
    match goal with |- smul (?k * r) ?w = vsub (vadd (smul ?k (smul r ?w)) ?c) _ => generalize k w c end.
    clear. intros kk ww cc. destruct ww, cc. apply vec_eq; vec_simpl; ring.
Qed.

Lemma tangent_exists g n b d : helical_gear g n b -> norm d = 1 -> dot d (g_z_axis (k_trf (ig_core g))) = 0 ->
  exists t, tooth_tangent g d t.
Proof.
  intros H Nd Dz. set (T := k_trf (ig_core g)) in *.
  pose proof (dir_of_plane (g_orient T) d (proj1 (hg_rot _ _ _ H)) Dz) as E. rewrite Nd, smul_1 in E.
  set (phi := angle_xy (vmat d (g_orient T)) - g_angle T).
  eexists. exists phi. split; [|apply (C70_helix_angle g n b phi 0 H)].
  fold T. unfold phi. rewrite E at 2. f_equal. ring.
Qed.

Lemma helical_mesh_ok g o n1 n2 b1 b2 sg so target :
  helical_gear (h_gear g) n1 b1 -> helical_gear (h_gear o) n2 b2 ->
  inside_teeth (k_tooth (ig_core (h_gear g))) = false ->
  0 < cos (k_alpha (ig_core (h_gear g))) -> norm target = 1 ->
  0 < base_radius_of (k_rp (ig_core (h_gear o))) (k_alpha (ig_core (h_gear o))) ->
  (inside_teeth (k_tooth (ig_core (h_gear o))) = true -> ig_r_base (h_gear g) < ig_r_base (h_gear o)) ->
  exists h' u, helical_mesh_to g o sg so 0 target = Ok h' /\ centre_dir (h_gear h') (h_gear o) u /\ u = vopp target.
Proof.
  intros H1 H2 I1 Ca Nt Po Ri.
  assert (NR : normalize_r target = Ok target).
  { unfold normalize_r, normalize. rewrite Nt. destruct (Req_EM_T 1 0); [lra|]. rewrite Rinv_1, smul_1. reflexivity. }
  assert (PD : 0 < mesh_dist (ig_r_base (h_gear g)) (ig_r_base (h_gear o))
     (orb (inside_teeth (k_tooth (ig_core (h_gear g)))) (inside_teeth (k_tooth (ig_core (h_gear o))))) 0).
  { unfold mesh_dist. rewrite I1, cos_0. cbn [orb].
    assert (0 < ig_r_base (h_gear o)).
    { rewrite (helical_r_base _ _ _ H2), Rabs_right; [|apply Rle_ge, Rmult_le_pos; [apply Rlt_le, H2|lra]].
      apply Rmult_lt_0_compat; [apply H2|exact Po]. }
    assert (0 <= ig_r_base (h_gear g)) by (rewrite (helical_r_base _ _ _ H1); apply Rabs_pos).
    destruct (inside_teeth (k_tooth (ig_core (h_gear o)))); [specialize (Ri eq_refl)|]; lra. }
  unfold helical_mesh_to, ig_mesh_to. rewrite NR. cbn [bind].
  rewrite (hg_cone _ _ _ H1), (hg_cone _ _ _ H2). destruct (Req_EM_T 0 0) as [_|N]; [|lra].
  cbn [bind ig_place ig_core with_trf k_trf g_center].
  set (D := mesh_dist _ _ _ _) in *. clearbody D.
  replace (vsub (g_center (k_trf (ig_core (h_gear o)))) (vadd (smul D target) (g_center (k_trf (ig_core (h_gear o))))))
    with (smul D (vopp target)) by (generalize (g_center (k_trf (ig_core (h_gear o)))); clear; revert target; vec_ring).
  assert (No : norm (vopp target) = 1) by (rewrite norm_vopp; exact Nt).
  assert (NR2 : normalize_r (smul D (vopp target)) = Ok (vopp target)).
  { unfold normalize_r. rewrite norm_smul, No, normalize_smul by (try exact No; lra).
    rewrite Rabs_right by lra. destruct (Req_EM_T (D * 1) 0); [lra|reflexivity]. }
  rewrite NR2. cbn [bind]. eexists. exists (vopp target). split; [reflexivity|]. split; [|reflexivity].
  split; [exact No|]. exists D. split; [exact PD|]. cbn [h_gear ig_place ig_core with_trf k_trf g_center].
  generalize (g_center (k_trf (ig_core (h_gear o)))). clear. revert target. vec_ring.
Qed.

Definition ex_helical (z b : R) : iparam :=
  mkIP z 5 b 0 ORIGIN 0 2 false 0 0 0 0 1 1.2 (PI / 9) 0 0 false 0.
Lemma cos_pi6_pos b : b = PI / 6 \/ b = - (PI / 6) -> 0 < cos b.
Proof. pose proof PI_RGT_0. intros [->| ->]; apply cos_gt_0; lra. Qed.

Lemma ex_helical_alpha z b hb : 0 < z -> 0 < cos (k_alpha (ig_core (h_gear (helical_new (ex_helical z b) hb)))).
Proof.
  intros Hz. destruct (helical_core (ex_helical z b) hb) as (zs & ->). unfold ig_new.
  rewrite helical_normalise by exact Hz.
  pose proof (atan_bound (tan (PI / 9) / cos b)). apply cos_gt_0; cbn -[atan tan cos PI]; lra.
Qed.

Example C70_example :
  let h := helical_new (ex_helical 20 (PI / 6)) true in
  helical_gear (h_gear h) 20 (PI / 6) /\ arc_pitch (h_gear h) * cos (PI / 6) = PI * 2 /\
  tip_height (h_gear h) = 2 * (1 + 0) /\ (2 <= length (k_zvals (ig_core (h_gear h))))%nat.
Proof.
  pose proof (cos_pi6_pos (PI / 6) (or_introl eq_refl)) as C. cbn zeta.
  destruct (helical_new_gear (ex_helical 20 (PI / 6)) true 20) as (H & _); [reflexivity|lia|cbn; lra|exact C|].
  destruct (C70_normal_dimensions (ex_helical 20 (PI / 6)) true) as (A & _ & B & _); [cbn; lra|exact C|].
  split; [exact H|]. split; [exact A|]. split; [exact B|].
  destruct (C70_sections (ex_helical 20 (PI / 6)) true) as (S & S0 & S1 & _); try exact C; try (cbn; lra).
  set (zs := k_zvals _) in *.
  assert (M : 0 < k_module (ig_core (h_gear (helical_new (ex_helical 20 (PI / 6)) true)))).
  { destruct (helical_core (ex_helical 20 (PI / 6)) true) as (zz & ->). unfold ig_new.
    rewrite helical_normalise by (cbn; lra). cbn -[cos PI]. apply Rdiv_lt_0_compat; [lra|exact C]. }
  set (mm := k_module _) in *. change (ip_height (ex_helical 20 (PI / 6))) with 5 in *. change (ip_zanchor (ex_helical 20 (PI / 6))) with 0 in *.
  assert (0 < 5 / mm) by (apply Rdiv_lt_0_compat; lra).
  destruct zs as [|x [|y zs]]; cbn [length nth last] in *; [lra|lra|lia].
Qed.

Example C71_example : exists g o h' u t1 t2,
  helical_gear (h_gear g) 20 (PI / 6) /\ helical_gear (h_gear o) 40 (PI / 6) /\
  helical_mesh_to g o 0 0 0 RIGHT = Ok h' /\ dot RIGHT (g_z_axis (k_trf (ig_core (h_gear o)))) = 0 /\
  centre_dir (h_gear h') (h_gear o) u /\ tooth_tangent (h_gear h') u t1 /\ tooth_tangent (h_gear o) (vopp u) t2 /\
  dot (g_z_axis (k_trf (ig_core (h_gear h')))) (g_z_axis (k_trf (ig_core (h_gear o)))) = 1 / 2.
Proof.
  pose proof (cos_pi6_pos (PI / 6) (or_introl eq_refl)) as C.
  set (g := helical_new (ex_helical 20 (PI / 6)) false). set (o := helical_new (ex_helical 40 (PI / 6)) false).
  destruct (helical_new_gear (ex_helical 20 (PI / 6)) false 20) as (H1 & I1); [reflexivity|lia|cbn; lra|exact C|].
  destruct (helical_new_gear (ex_helical 40 (PI / 6)) false 40) as (H2 & I2); [reflexivity|lia|cbn; lra|exact C|].
  fold g in H1, I1. fold o in H2, I2.
  assert (A1 : 0 < cos (k_alpha (ig_core (h_gear g)))) by (apply ex_helical_alpha; lra).
  assert (A2 : 0 < cos (k_alpha (ig_core (h_gear o)))) by (apply ex_helical_alpha; lra).
  assert (Nr : norm RIGHT = 1) by (apply norm_eq; [lra|vec_simpl; ring]).
  destruct (helical_mesh_ok g o 20 40 (PI / 6) (PI / 6) 0 0 RIGHT H1 H2 I1 A1 Nr) as (h' & u & Q & CD & EU).
  { unfold base_radius_of. rewrite (hg_rp _ _ _ H2). nra. }
  { rewrite I2. discriminate. }
  assert (TZ : dot RIGHT (g_z_axis (k_trf (ig_core (h_gear o)))) = 0).
  { assert (TT : g_z_axis (k_trf (ig_core (h_gear o))) = OUT).
    { unfold o. destruct (helical_core (ex_helical 40 (PI / 6)) false) as (zs & ->). unfold ig_new.
      rewrite helical_normalise by (cbn; lra). cbn -[cos PI]. unfold g_z_axis. cbn. vec_ring. }
    rewrite TT. vec_simpl. ring. }
  destruct (helical_mesh_shape _ _ _ _ _ _ _ _ _ _ _ H1 H2 Q TZ) as (g1 & u' & E1 & CD' & UZ & TT & HH & _).
  rewrite (centre_dir_unique _ _ _ _ CD' CD) in *. clear u' CD'.
  destruct (C71_tilt _ _ _ _ _ _ _ _ _ _ _ H1 H2 Q TZ) as (g1' & u' & _ & CD' & _ & _ & _ & _ & ZA & DZ & _).
  rewrite (centre_dir_unique _ _ _ _ CD' CD) in *. clear u' CD'.
  assert (UZ' : dot u (g_z_axis (k_trf (ig_core (h_gear h')))) = 0).
  { rewrite ZA. generalize dependent (g_z_axis (k_trf (ig_core (h_gear o)))). intros z TZ UZ _ _.
    rewrite dot_comm, dot_vadd_l, !dot_smul_l, (dot_comm z u), UZ.
    replace (dot (cross u z) u) with 0 by (clear; revert u z; vec_ring). ring. }
  destruct (tangent_exists (h_gear h') 20 (PI / 6) u HH (proj1 CD) UZ') as (t1 & T1).
  destruct (tangent_exists (h_gear o) 40 (PI / 6) (vopp u) H2) as (t2 & T2).
  { rewrite norm_vopp. apply CD. }
  { replace (vopp u) with (smul (-1) u) by (clear; revert u; vec_ring). rewrite dot_smul_l, UZ. ring. }
  exists g, o, h', u, t1, t2. do 7 (split; [assumption|]).
  rewrite DZ. cbn [ip_helix ex_helical]. replace (PI / 6 + PI / 6) with (PI / 3) by field. rewrite cos_PI3. reflexivity.
Qed.

(** The documented example of HelicalRingGear with 12 and 24 teeth and 30 degrees. *)
Example C77_example : exists g o h' u t1 t2,
  g = helical_new (ex_helical 12 (PI / 6)) false /\ o = helical_ring_new (ex_helical 24 (PI / 6)) false /\
  helical_mesh_to g o 0 0 0 UP = Ok h' /\ centre_dir (h_gear h') (h_gear o) u /\
  tooth_tangent (h_gear h') (vopp u) t1 /\ tooth_tangent (h_gear o) (vopp u) t2 /\
  dot (g_z_axis (k_trf (ig_core (h_gear h')))) (g_z_axis (k_trf (ig_core (h_gear o)))) = 1 / 2 /\
  cross t1 t2 <> ORIGIN.
Proof.
  pose proof (cos_pi6_pos (PI / 6) (or_introl eq_refl)) as C. pose proof PI_RGT_0.
  set (g := helical_new (ex_helical 12 (PI / 6)) false). set (o := helical_ring_new (ex_helical 24 (PI / 6)) false).
  destruct (helical_new_gear (ex_helical 12 (PI / 6)) false 12) as (H1 & I1); [reflexivity|lia|cbn; lra|exact C|].
  destruct (helical_ring_gear (ex_helical 24 (PI / 6)) false 24) as (H2 & I2); [reflexivity|lia|cbn; lra|exact C|].
  fold g in H1, I1. fold o in H2, I2. cbn [ip_helix ex_helical] in H1, H2.
  assert (A1 : 0 < cos (k_alpha (ig_core (h_gear g)))) by (apply ex_helical_alpha; lra).
  assert (AA : k_alpha (ig_core (h_gear o)) = k_alpha (ig_core (h_gear g)) /\
               g_scale (k_trf (ig_core (h_gear o))) = g_scale (k_trf (ig_core (h_gear g)))).
  { unfold o, g, helical_ring_new. rewrite helical_normalise by (cbn; lra).
    destruct (helical_core (ex_helical 12 (PI / 6)) false) as (zs & ->). unfold ig_new.
    rewrite helical_normalise by (cbn; lra). split; reflexivity. }
  destruct AA as (AA & SS).
  assert (Nr : norm UP = 1) by (apply norm_eq; [lra|vec_simpl; ring]).
  assert (RP1 : k_rp (ig_core (h_gear g)) = 6) by (rewrite (hg_rp _ _ _ H1); field).
  assert (RP2 : k_rp (ig_core (h_gear o)) = 12) by (rewrite (hg_rp _ _ _ H2); field).
  destruct (helical_mesh_ok g o 12 24 (PI / 6) (PI / 6) 0 0 UP H1 H2 I1 A1 Nr) as (h' & u & Q & CD & EU).
  { unfold base_radius_of. rewrite RP2, AA. nra. }
  { intros _. rewrite (helical_r_base _ _ _ H1), (helical_r_base _ _ _ H2), AA, SS, RP1, RP2. unfold base_radius_of.
    pose proof (hg_scale _ _ _ H1) as P. set (s := g_scale (k_trf (ig_core (h_gear g)))) in *. set (c := cos (k_alpha _)) in *.
    assert (0 < s * c) by (apply Rmult_lt_0_compat; [exact P|exact A1]).
    rewrite !Rabs_right; nra. }
  assert (TZ : dot UP (g_z_axis (k_trf (ig_core (h_gear o)))) = 0).
  { assert (TT : g_z_axis (k_trf (ig_core (h_gear o))) = OUT).
    { unfold o, helical_ring_new. rewrite helical_normalise by (cbn; lra). cbn -[cos PI]. unfold g_z_axis. cbn. vec_ring. }
    rewrite TT. vec_simpl. ring. }
  destruct (helical_mesh_shape _ _ _ _ _ _ _ _ _ _ _ H1 H2 Q TZ) as (g1 & u' & E1 & CD' & UZ & TT & HH & _).
  rewrite (centre_dir_unique _ _ _ _ CD' CD) in *. clear u' CD'.
  destruct (C71_tilt _ _ _ _ _ _ _ _ _ _ _ H1 H2 Q TZ) as (g1' & u' & _ & CD' & _ & _ & _ & _ & ZA & DZ & _).
  rewrite (centre_dir_unique _ _ _ _ CD' CD) in *. clear u' CD'.
  assert (UZ' : dot u (g_z_axis (k_trf (ig_core (h_gear h')))) = 0).
  { rewrite ZA. generalize dependent (g_z_axis (k_trf (ig_core (h_gear o)))). intros z TZ UZ _ _.
    rewrite dot_comm, dot_vadd_l, !dot_smul_l, (dot_comm z u), UZ.
    replace (dot (cross u z) u) with 0 by (clear; revert u z; vec_ring). ring. }
  assert (VU : vopp u = smul (-1) u) by (clear; revert u; vec_ring).
  destruct (tangent_exists (h_gear h') 12 (PI / 6) (vopp u) HH) as (t1 & T1).
  { rewrite norm_vopp. apply CD. }
  { rewrite VU, dot_smul_l, UZ'. ring. }
  destruct (tangent_exists (h_gear o) 24 (PI / 6) (vopp u) H2) as (t2 & T2).
  { rewrite norm_vopp. apply CD. }
  { rewrite VU, dot_smul_l, UZ. ring. }
  exists g, o, h', u, t1, t2. do 2 (split; [reflexivity|]). do 4 (split; [assumption|]). split.
  - rewrite DZ. cbn [ip_helix ex_helical]. replace (PI / 6 + PI / 6) with (PI / 3) by field. rewrite cos_PI3. reflexivity.
  - apply (C77_documented_use_refuted _ _ _ _ _ _ _ _ _ _ _ _ _ H1 H2 Q TZ CD T1 T2); lra.
Qed.
