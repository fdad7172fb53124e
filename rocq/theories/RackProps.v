(** Property C72: racks meshed to gears. *)
From Coq Require Import Nsatz Reals Lra Psatz Lia ZArith List Bool.
From Verif Require Import Num Vec Transform TransformProps Params ParamsProps Coords CoordsProps Gen GenProps
  Interp Curve CurveLem CurveProps ArcLem ArcProps Chain GearMath Tooth Wrapper GearLem MeshAngleProps MeshLem
  MeshNormal MeshConj MeshProps MeshDistProps MeshContactProps Info InfoProps HelicalProps CrownProps Rack.
Import ListNotations.
Open Scope R_scope.

(** ** Specification *)

(** The rack pushed along its own length by [x] pitches, against the direction of its y axis. *)
Definition rack_moved (r : rack) (x : R) : rack :=
  mkRack (rk_teeth r) (rk_height r) (rk_alpha r) (rk_pos r) (rk_offset r - x) (rk_orient r)
    (rk_module r) (rk_add r) (rk_ded r) (rk_beta r) (rk_backlash r) (rk_herring r).
(** Flanks of rack tooth [k] (counted from the reference tooth) at height [z]; [s] runs from 0 at
    the root to 1 at the tip. *)
Definition rack_lower (r : rack) (z : R) (k : Z) (s : R) : vec := rk_point r (IZR k * PI) z (rk_line r s).
Definition rack_upper (r : rack) (z : R) (k : Z) (s : R) : vec :=
  rk_point r (IZR k * PI) z (rk_mirror (rk_line r s)).
(** Centre of rack tooth [k] on the rack's reference line. *)
Definition rack_centre (r : rack) (z : R) (k : Z) : vec := rk_point r (IZR k * PI) z ORIGIN.
(** Height of a flank point above the reference line, in modules. *)
Definition rack_level (r : rack) (s : R) : R := - rk_ded r + s * (rk_add r + rk_ded r).

(** A rack conjugate to a gear: there are two fixed lines touching the base circle such that for
    every amount of rolling [x], rack tooth [k] lies between gear teeth [m - k] and [m - k - 1]: on
    the first line its lower flank is separated by [G] from the lower flank of tooth [m - k], on the
    second line its upper flank is separated by [G] from the upper flank of tooth [m - k - 1]; all
    four flanks are perpendicular to the lines.  The contact advances by one base pitch per pitch of
    rolling; the lines are inclined by [al], and [H] is the level of the points of tangency above the
    rack's reference line. *)
Definition conjugate_rack (S : gtransform) (n : Z) (r A : R) (rk : rack) (z G al H : R) : Prop :=
  let rb := g_scale S * r in
  exists (m : Z) (e e' : R) (u B u' B' : vec),
    norm u = 1 /\ norm u' = 1 /\
    line_tangent (g_center S) (g_z_axis S) B u rb /\ line_tangent (g_center S) (g_z_axis S) B' u' rb /\
    forall (x : R) (k : Z),
      (exists t s,
         let P := lower_flank (turned S n x) n r A (m - k) t in
         t = (e - x + IZR k) * (2 * PI / IZR n) /\ rk_module rk * rack_level rk s = H - rb * t * sin al /\
         P = vsub B (smul (rb * t) u) /\ P = vadd (rack_lower (rack_moved rk x) z k s) (smul G u) /\
         normal_to (lower_flank (turned S n x) n r A (m - k)) u t /\
         normal_to (rack_lower (rack_moved rk x) z k) u s) /\
      (exists t s,
         let P := upper_flank (turned S n x) n r A (m - k - 1) t in
         t = (e' + x - IZR k) * (2 * PI / IZR n) /\ rk_module rk * rack_level rk s = H - rb * t * sin al /\
         P = vadd B' (smul (rb * t) u') /\ P = vsub (rack_upper (rack_moved rk x) z k s) (smul G u') /\
         normal_to (upper_flank (turned S n x) n r A (m - k - 1)) u' t /\
         normal_to (rack_upper (rack_moved rk x) z k) u' s).

(** A cylindrical gear with any list of sections. *)
Record rackable (g : igear) (n : Z) : Prop := {
  ra_core : exists zs, ig_core g = with_zvals (with_trf (calc_params (ig_in g)) (k_trf (ig_core g))) zs;
  ra_teeth : ip_teeth (ig_in g) = IZR n;
  ra_n : (0 < n)%Z;
  ra_module : 0 < ip_module (ig_in g);
  ra_cone : ip_cone (ig_in g) = 0;
  ra_alpha : 0 <= ip_alpha (ig_in g) < PI / 2;
  ra_orient : orthogonal (g_orient (k_trf (ig_core g)));
  ra_scale : g_scale (k_trf (ig_core g)) = ip_module (ig_in g) }.

(** The section at [z] of a gear whose sections are turned by [angle z]. *)
Definition hsection (g : igear) (angle : R -> R) (z : R) : gtransform :=
  g_mul (k_trf (ig_core g))
    (mkG (g_center (k_slice (ig_core g) z)) UNIT3X3 (g_scale (k_slice (ig_core g) z)) (angle z)).

(** ** Lemmas *)

Lemma cylindrical_rackable g n : cylindrical g n -> rackable g n.
Proof.
  intros [E Ht Hn Hm Hc Ha HO HS]. constructor; try assumption.
  exists (k_zvals (ig_core g)). rewrite E at 1. rewrite E. reflexivity.
Qed.

Lemma rackable_values g n : rackable g n ->
  k_pitch_angle (ig_core g) = 2 * PI / IZR n /\ k_pitch_radius (ig_core g) = IZR n * ip_module (ig_in g) / 2 /\
  k_module (ig_core g) = ip_module (ig_in g) /\ k_rp (ig_core g) = IZR n / 2 /\
  k_alpha (ig_core g) = ip_alpha (ig_in g) /\ num_teeth (k_tooth (ig_core g)) = IZR n /\ k_gamma (ig_core g) = 0 /\
  k_spiral (ig_core g) = tan (ip_helix (ig_in g)) / (IZR n / 2) /\
  k_tooth_angle (ig_core g) = 2 * PI / IZR n / 4 + ip_shift (ig_in g) * tan (ip_alpha (ig_in g)) / (IZR n / 2)
    - ip_backlash (ig_in g) / (IZR n / 2).
Proof.
  intros H. destruct (ra_core _ _ H) as (zs & E). assert (N : 0 < IZR n) by (apply IZR_lt, (ra_n _ _ H)).
  unfold k_pitch_angle, k_pitch_radius, tp_pitch_angle.
  rewrite E. cbn [with_zvals with_trf calc_params k_tooth k_module k_rp k_alpha k_gamma k_spiral k_tooth_angle].
  rewrite (ra_teeth _ _ H), (ra_cone _ _ H), tp_make_pos by exact N. cbn [num_teeth].
  repeat split; field; lra.
Qed.

Lemma hsection_values g n angle z : rackable g n ->
  let T := k_trf (ig_core g) in let S := hsection g angle z in
  g_center S = vadd (g_center T) (smul (ip_module (ig_in g) * z) (g_z_axis T)) /\
  g_orient S = g_orient T /\ g_scale S = ip_module (ig_in g) /\ g_angle S = g_angle T + angle z.
Proof.
  intros H. cbn zeta. set (T := k_trf (ig_core g)).
  destruct (rackable_values _ _ H) as (_ & _ & _ & _ & _ & NT & GA & _).
  assert (N : 0 < IZR n) by (apply IZR_lt, (ra_n _ _ H)).
  unfold hsection. fold T. cbn [g_mul k_slice g_center g_orient g_scale g_angle].
  assert (SC : g_scale T = ip_module (ig_in g)) by apply (ra_scale _ _ H).
  rewrite GA, NT, cos_0, sin_0, mmul_I_r, SC, mapp_mmul, !mapp_smul, rotz_OUT, !smul_smul.
  unfold g_z_axis. rewrite col3_mapp. repeat split; try (f_equal; f_equal; ring); field; lra.
Qed.

Lemma section_base_value g n z s2 : rackable g n -> inv (ip_alpha (ig_in g)) <= PI -> tooth_solved g s2 ->
  - section_angle_base g z s2 =
  (PI / 2 + ip_shift (ig_in g) * tan (ip_alpha (ig_in g)) * 2 - ip_backlash (ig_in g) * 2) / IZR n
  - relief g z + inv (ip_alpha (ig_in g)).
Proof.
  intros H HI HS. destruct (rackable_values _ _ H) as (_ & _ & _ & RP & AL & _ & _ & _ & TA).
  assert (N : 0 < IZR n) by (apply IZR_lt, (ra_n _ _ H)).
  unfold section_angle_base. rewrite RP, AL. unfold tooth_solved in HS. rewrite (ra_teeth _ _ H) in HS.
  rewrite C42_tooth_base_angle; [|lra|apply (ra_alpha _ _ H)|exact HI|exact HS].
  replace (ig_pia g z) with (k_tooth_angle (ig_core g) - relief g z) by (unfold relief; ring).
  rewrite TA. unfold inv. field. lra.
Qed.

(** The y shift of a section of the rack. *)
Definition rack_lean (r : rack) (z : R) : R :=
  if rk_herring r then - tan (rk_beta r) * (rk_height r / rk_module r / 2 - Rabs (rk_height r / rk_module r / 2 - z))
  else - tan (rk_beta r) * z.

Lemma rk_lift_eq r z : cos (rk_beta r) <> 0 -> rk_lift r z = V 0 (rack_lean r z) z.
Proof.
  intros C. unfold rk_lift, rack_lean, rk_extrude_dir, rk_mirror, tan. cbn zeta.
  set (b := rk_beta r) in *. replace (/ 2 * rk_height r / rk_module r) with (rk_height r / rk_module r / 2) by (unfold Rdiv; ring).
  set (h := rk_height r / rk_module r / 2).
  destruct (rk_herring r).
  - destruct (Rle_dec z h) as [L|L].
    + rewrite Rabs_right by lra. apply vec_eq; vec_simpl; field; exact C.
    + rewrite Rabs_left by lra. apply vec_eq; vec_simpl; field; exact C.
  - apply vec_eq; vec_simpl; field; exact C.
Qed.

Lemma rk_line_eq r s : rk_line r s =
  V (rack_level r s) (- (PI / 4 - tan (rk_alpha r) * rack_level r s - rk_backlash r)) 0.
Proof.
  unfold rk_line, rk_pt_a, rk_pt_d, rack_level, rk_pitch. apply vec_eq; vec_simpl; field.
Qed.

(** A meshed rack: where its points are, in terms of the gear. *)
Definition meshed_at (r : rack) (g : igear) (n : Z) (O : mat) (th : R) (off : R) : Prop :=
  rk_pos r = vadd (g_center (k_trf (ig_core g)))
    (smul ((IZR n / 2 + ip_shift (ig_in g)) * ip_module (ig_in g)) (dir O th)) /\
  rk_orient r = mmul O (rotz (PI + th)) /\
  exists M : Z, rk_offset r = (th - g_angle (k_trf (ig_core g))) / (2 * PI / IZR n) - IZR M - 1 / 2 + off.

Lemma mesh_to_meshed r g n target off r' : rackable g n -> rk_mesh_to r g target off = Ok r' ->
  let T := k_trf (ig_core g) in
  let th := angle_xy (vmat target (g_orient T)) in
  meshed_at r' g n (g_orient T) th off /\
  off_axis target T /\
  rk_module r' = rk_module r /\ rk_alpha r' = rk_alpha r /\ rk_add r' = rk_add r /\ rk_ded r' = rk_ded r /\
  rk_beta r' = rk_beta r /\ rk_backlash r' = rk_backlash r /\ rk_herring r' = rk_herring r /\
  rk_height r' = rk_height r /\ rk_teeth r' = rk_teeth r.
Proof.
  intros H MT T th. destruct (rackable_values _ _ H) as (PA & PR & KM & _).
  unfold rk_mesh_to in MT. fold T in MT. fold th in MT. rewrite PA, PR, KM in MT.
  unfold normalize_r in MT.
  destruct (Req_EM_T (norm (project_plane target (g_z_axis T))) 0) as [|NZ]; [discriminate|].
  cbn [bind] in MT. injection MT as <-.
  cbn [rk_module rk_alpha rk_add rk_ded rk_beta rk_backlash rk_herring rk_height rk_teeth].
  split; [|split; [|repeat split]].
  - split; [|split]; cbn [rk_pos rk_orient rk_offset].
    + f_equal. replace (normalize (project_plane target (g_z_axis T))) with (dir (g_orient T) th).
      * f_equal. field.
      * symmetry. unfold g_z_axis. rewrite (project_dir (g_orient T) target) by apply (ra_orient _ _ H). fold th.
        change (col3 (g_orient T)) with (g_z_axis T).
        apply normalize_smul; [|apply norm_dir, (ra_orient _ _ H)].
        pose proof (norm_nonneg (project_plane target (g_z_axis T))). lra.
    + reflexivity.
    + set (ph := (th - g_angle T) / (2 * PI / IZR n)).
      rewrite (frac_id (frac ph)) by apply frac_bound. exists (floorZ ph). change (ph - IZR (floorZ ph) - 5 / 10 + off = ph - IZR (floorZ ph) - 1 / 2 + off). lra.
  - intros E. apply NZ. change (project_plane target (g_z_axis T) = ORIGIN) in E. rewrite E.
    unfold norm. replace (dot ORIGIN ORIGIN) with 0 by (vec_simpl; ring). apply sqrt_0.
Qed.

Lemma mapp_back O th a b c :
  mapp (mmul O (rotz (PI + th))) (V a b c) =
  vadd (vsub (smul (- a) (dir O th)) (smul b (dir' O th))) (smul c (col3 O)).
Proof.
  rewrite (Rplus_comm PI th), mapp_mmul. unfold dir, dir'. unfold rotz. rewrite neg_cos, neg_sin.
  generalize (cos th) (sin th). clear. intros co si. destruct O. apply vec_eq; vec_simpl; ring.
Qed.

(** Position of a point with outline coordinates [a], [b]. *)
Lemma meshed_point r g n O th off x y z a b : meshed_at r g n O th off -> cos (rk_beta r) <> 0 ->
  rk_point (rack_moved r x) y z (V a b 0) =
  vadd (vadd (g_center (k_trf (ig_core g))) (smul (rk_module r * z) (col3 O)))
    (vsub (smul ((IZR n / 2 + ip_shift (ig_in g)) * ip_module (ig_in g) - rk_module r * a) (dir O th))
          (smul (rk_module r * (b + y + rack_lean r z + (rk_offset r - x) * PI)) (dir' O th))).
Proof.
  intros (EP & EO & _) C. unfold rk_point, rk_place.
  rewrite (rk_lift_eq (rack_moved r x)) by exact C.
  cbn [rack_moved rk_pos rk_orient rk_module rk_offset]. rewrite EP, EO.
  change (rack_lean (rack_moved r x) z) with (rack_lean r z).
  match goal with |- context [mapp _ ?q] =>
    replace q with (V (rk_module r * a) (rk_module r * (b + y + rack_lean r z + (rk_offset r - x) * PI)) (rk_module r * z))
      by (unfold rk_pitch; apply vec_eq; vec_simpl; ring) end.
  rewrite mapp_back.
  generalize (g_center (k_trf (ig_core g))) (dir O th) (dir' O th) (col3 O) (rack_lean r z). clear. intros c d d' e l.
  destruct c, d, d', e. apply vec_eq; vec_simpl; ring.
Qed.

(** The geometry of contact on the tangent at [th + al]. *)
Lemma rack_contact_lower O c th al rb w y t G :
  rb = w * cos al - y * sin al -> G = w * sin al + y * cos al - rb * t ->
  let X := th + al in
  vadd c (smul rb (vsub (dir O X) (smul t (dir' O X)))) =
  vadd (vadd c (vsub (smul w (dir O th)) (smul y (dir' O th)))) (smul G (dir' O X)).
Proof.
  intros E1 E2 X. replace th with (X + - al) by (unfold X; ring).
  rewrite (dir_plus O X (- al)), (dir'_plus O X (- al)), cos_neg, sin_neg.
  rewrite E2. replace (smul rb (vsub (dir O X) (smul t (dir' O X))))
    with (vsub (smul rb (dir O X)) (smul (rb * t) (dir' O X))) by (destruct (dir O X), (dir' O X); apply vec_eq; vec_simpl; ring).
  rewrite E1 at 1. clear E1 E2. pose proof (sc1 al) as S.
  set (q := rb * t). clearbody q. generalize (dir O X) (dir' O X). intros d d'. destruct c, d, d'.
  apply vec_eq; vec_simpl;
  match goal with |- ?l = ?r => apply Rminus_diag_uniq end; nsatz.
Qed.

Lemma rack_flank_normal r g n O th off x z k X sg :
  meshed_at r g n O th off -> cos (rk_beta r) <> 0 -> orthogonal O -> 0 < cos (rk_alpha r) ->
  (sg = 1 \/ sg = -1) -> X = th + sg * rk_alpha r -> forall s,
  normal_to (if Req_EM_T sg 1 then rack_lower (rack_moved r x) z k else rack_upper (rack_moved r x) z k) (dir' O X) s.
Proof.
  intros HM C HO CA Hs EX s. unfold normal_to.
  set (W := (IZR n / 2 + ip_shift (ig_in g)) * ip_module (ig_in g)).
  set (c := vadd (g_center (k_trf (ig_core g))) (smul (rk_module r * z) (col3 O))).
  set (Y := rk_backlash r - PI / 4).
  set (D := IZR k * PI + rack_lean r z + (rk_offset r - x) * PI).
  apply (deriv_ext (fun _ => dot c (dir' O X) - W * (sg * sin (rk_alpha r)) - rk_module r * (sg * Y + D) * cos (rk_alpha r)));
    [|apply derivable_pt_lim_const].
  intros u.
  assert (E : (if Req_EM_T sg 1 then rack_lower (rack_moved r x) z k else rack_upper (rack_moved r x) z k) u =
    rk_point (rack_moved r x) (IZR k * PI) z (V (rack_level r u) (sg * (Y + tan (rk_alpha r) * rack_level r u)) 0)).
  { destruct (Req_EM_T sg 1) as [->|N]; unfold rack_lower, rack_upper; rewrite rk_line_eq; cbn [rk_mirror vx vy vz];
      f_equal; [|destruct Hs as [->| ->]; [exfalso; apply N; reflexivity|]]; apply vec_eq; cbn [vx vy vz rack_moved rk_alpha rk_backlash];
      change (rack_level (rack_moved r x) u) with (rack_level r u); unfold rk_mirror, Y; cbn [vx vy vz]; ring. }
  rewrite E, (meshed_point r g n O th off) by assumption. fold W c.
  rewrite dot_vadd_l, dot_vsub_l, !dot_smul_l, dir_dir'_angle, dir'_dir'_angle by exact HO.
  replace (th - X) with (- (sg * rk_alpha r)) by (rewrite EX; ring).
  assert (SS : sin (- (sg * rk_alpha r)) = - (sg * sin (rk_alpha r)) /\ cos (- (sg * rk_alpha r)) = cos (rk_alpha r)).
  { rewrite sin_neg, cos_neg. destruct Hs as [->| ->].
    - rewrite !Rmult_1_l. split; reflexivity.
    - replace (-1 * rk_alpha r) with (- rk_alpha r) by ring. rewrite sin_neg, cos_neg. split; ring. }
  destruct SS as (-> & ->). unfold D, tan. field. lra.
Qed.

Lemma dir'_norm O a : orthogonal O -> norm (dir' O a) = 1.
Proof. apply norm_dir'. Qed.

(** The contact, for a gear and a rack whose sections are shifted alike. *)
Lemma rack_conjugate g n r O th j angle z s2 : rackable g n -> O = g_orient (k_trf (ig_core g)) ->
  meshed_at r g n O th (IZR j) ->
  rk_module r = ip_module (ig_in g) -> rk_alpha r = ip_alpha (ig_in g) -> cos (rk_beta r) <> 0 ->
  rk_add r + rk_ded r <> 0 -> inv (ip_alpha (ig_in g)) <= PI -> tooth_solved g s2 ->
  rack_lean r z = - (IZR n / 2) * angle z ->
  conjugate_rack (hsection g angle z) n (unit_base g) (- section_angle_base g z s2) r z
    (ip_module (ig_in g) * cos (ip_alpha (ig_in g)) *
       (ip_backlash (ig_in g) + IZR n / 2 * relief g z + rk_backlash r))
    (ip_alpha (ig_in g))
    (ip_module (ig_in g) * (ip_shift (ig_in g) + sin (ip_alpha (ig_in g)) *
       (IZR n / 2 * sin (ip_alpha (ig_in g)) - cos (ip_alpha (ig_in g)) *
          (ip_backlash (ig_in g) + IZR n / 2 * relief g z + rk_backlash r)))).
Proof.
  intros H EO HM EM EA CB HH HI HS HL.
  destruct (hsection_values g n angle z H) as (SC & SO & SS & SA). cbn zeta in *.
  set (S := hsection g angle z) in *. set (T := k_trf (ig_core g)) in *.
  pose proof (ra_orient _ _ H) as HO. fold T in HO. rewrite <- EO in HO.
  assert (N : 0 < IZR n) by (apply IZR_lt, (ra_n _ _ H)). pose proof PI_RGT_0 as PP.
  pose proof (ra_module _ _ H) as Hm. destruct (ra_alpha _ _ H) as (A0 & A1).
  assert (CA : 0 < cos (ip_alpha (ig_in g))) by (apply cos_gt_0; lra).
  pose proof (section_base_value g n z s2 H HI HS) as BV.
  pose proof (HM) as (EP & ER & M & EF). fold T in EP, EF.
  set (al := ip_alpha (ig_in g)) in *. set (m := ip_module (ig_in g)) in *.
  set (A := - section_angle_base g z s2) in *. set (sh := ip_shift (ig_in g)) in *.
  set (ga := g_angle T) in *. set (rel := relief g z) in *. set (blg := ip_backlash (ig_in g)) in *.
  set (blr := rk_backlash r) in *. set (an := angle z) in *. set (G := m * cos al * _). set (HL0 := m * (sh + _)).
  assert (RB : m * unit_base g = m * (IZR n / 2) * cos al) by (unfold unit_base; rewrite (ra_teeth _ _ H); fold al; ring).
  assert (SCc : g_center S = vadd (g_center T) (smul (m * z) (col3 O))) by (rewrite SC, EO; reflexivity).
  assert (SOO : g_orient S = O) by (rewrite SO, EO; reflexivity).
  assert (SZ : g_z_axis S = col3 O) by (unfold g_z_axis; rewrite SOO; reflexivity).
  unfold conjugate_rack. rewrite SS. cbn zeta. rewrite RB.
  set (rb := m * (IZR n / 2) * cos al).
  assert (RB0 : 0 < rb) by (unfold rb; apply Rmult_lt_0_compat; [nra|exact CA]).
  set (X := th + al). set (X' := th + - al).
  exists (M + 1 - j)%Z, ((X - g_angle S + A) / (2 * PI / IZR n) - IZR (M + 1 - j)),
    ((g_angle S + A - X') / (2 * PI / IZR n) + IZR (M + 1 - j) - 1), (dir' O X), (vadd (g_center S) (smul rb (dir O X))), (dir' O X'), (vadd (g_center S) (smul rb (dir O X'))).
  assert (LT : forall Y, line_tangent (g_center S) (g_z_axis S) (vadd (g_center S) (smul rb (dir O Y))) (dir' O Y) rb).
  { intros Y. unfold line_tangent. rewrite SZ.
    replace (vsub (vadd (g_center S) (smul rb (dir O Y))) (g_center S)) with (smul rb (dir O Y))
      by (generalize (g_center S) (dir O Y); clear; intros c d; destruct c, d; apply vec_eq; vec_simpl; ring).
    rewrite norm_smul, norm_dir, Rabs_right, !dot_smul_l, dir_dir'_angle, dir_z by (exact HO || lra).
    replace (Y - Y) with 0 by ring. rewrite sin_0. repeat split; try ring.
    apply dir'_z, HO. }
  split; [apply norm_dir', HO|]. split; [apply norm_dir', HO|]. split; [apply LT|]. split; [apply LT|].
  intros x k.
  assert (ct : tan al * cos al = sin al) by (unfold tan; field; lra). pose proof (sc1 al) as sc.
  set (kap := (IZR k + rk_offset r - x) * PI - IZR n / 2 * an).
  assert (TD : forall a, rack_level r ((a + rk_ded r) / (rk_add r + rk_ded r)) = a) by (intros a; unfold rack_level; field; exact HH).
  assert (KA : kap = IZR n / 2 * (th - ga - an) + (IZR k - x - IZR M + IZR j) * PI - 2 * (PI / 4)).
  { unfold kap. rewrite EF. field. lra. }
  assert (PN : 2 * PI / IZR n <> 0) by (apply Rgt_not_eq, Rdiv_lt_0_compat; lra).
  split.
  - set (a := cos al * (sh * cos al + (PI / 4 - blr - kap) * sin al)).
    set (t := X - (g_angle S + x * (2 * PI / IZR n) + IZR (M + 1 - j - k) * (2 * PI / IZR n) - A)).
    exists t, ((a + rk_ded r) / (rk_add r + rk_ded r)).
    assert (TAU : g_angle (turned S n x) + IZR (M + 1 - j - k) * (2 * PI / IZR n) - A + t = X) by (unfold t; cbn [turned g_angle]; ring).
    assert (RT : rb * t = m * (IZR n / 2 * sin al + sh * sin al + cos al * (PI / 4 - blg - IZR n / 2 * rel)
                   + cos al * (IZR n / 2 * (th - ga - an) - (x + IZR M - IZR j - IZR k) * PI - 4 * (PI / 4)))).
    { unfold rb, t, X. rewrite SA, BV, minus_IZR, minus_IZR, plus_IZR. fold ga.
      unfold inv. rewrite <- ct. field. lra. }
    split; [|split; [|split; [|split; [|split]]]].
    + unfold t. rewrite !minus_IZR, plus_IZR. field. lra.
    + rewrite TD, EM, RT. fold m. unfold HL0, a. rewrite KA.
      set (Q := IZR n / 2 * (th - ga - an)).
      generalize sc. generalize (sin al) (cos al). clearbody Q rel. clear. intros s c sc.
      assert (m * sh * (s * s + c * c) = m * sh) by (rewrite sc; ring). lra.
    + rewrite lower_flank_eq. cbn zeta. rewrite TAU. cbn [turned g_center g_scale g_orient]. rewrite SS, RB, SOO. fold rb.
      generalize (g_center S) (dir O X) (dir' O X). clear. intros c d d'. destruct c, d, d'. apply vec_eq; vec_simpl; ring.
    + rewrite lower_flank_eq. cbn zeta. rewrite TAU. cbn [turned g_center g_scale g_orient]. rewrite SS, RB, SOO. fold rb.
      unfold rack_lower. rewrite rk_line_eq. cbn [rack_moved rk_alpha rk_backlash].
      change (rack_level (rack_moved r x) ((a + rk_ded r) / (rk_add r + rk_ded r))) with (rack_level r ((a + rk_ded r) / (rk_add r + rk_ded r))).
      rewrite TD, EA. fold al blr.
      rewrite (meshed_point r g n O th (IZR j)) by assumption. fold T m sh. rewrite EM, <- SCc. fold m.
      apply (rack_contact_lower O (g_center S) th al rb).
      * rewrite HL. fold an.
        replace (- (PI / 4 - tan al * a - blr) + IZR k * PI + - (IZR n / 2) * an + (rk_offset r - x) * PI)
          with (tan al * a - (PI / 4 - blr - kap)) by (unfold kap; ring).
        unfold rb. transitivity (m * (IZR n / 2) * cos al + m * (sh * cos al + (PI / 4 - blr - kap) * sin al - a / cos al)).
        { unfold a. field. lra. }
        replace (a / cos al) with (a * cos al + a * (tan al * sin al)).
        2:{ unfold tan. transitivity (a * (sin al * sin al + cos al * cos al) / cos al); [field; lra|rewrite sc; field; lra]. }
        ring.
      * rewrite HL. fold an.
        replace (- (PI / 4 - tan al * a - blr) + IZR k * PI + - (IZR n / 2) * an + (rk_offset r - x) * PI)
          with (tan al * a - (PI / 4 - blr - kap)) by (unfold kap; ring).
        rewrite RT. unfold G. rewrite KA.
        replace (tan al * a) with (sh * sin al * cos al + (PI / 4 - blr - kap) * (sin al * sin al)).
        2:{ unfold a, tan. field. lra. }
        rewrite KA. set (Q := IZR n / 2 * (th - ga - an)). unfold a. rewrite KA. fold Q.
        generalize sc. generalize (sin al) (cos al). clearbody Q rel. clear. intros s c sc.
        field.
    + replace (dir' O X) with (dir' (g_orient (turned S n x)) X) by (cbn [turned g_orient]; rewrite SOO; reflexivity).
      apply lower_flank_normal; [cbn [turned g_orient]; rewrite SOO; exact HO|].
      rewrite TAU. replace (X - X) with 0 by ring. apply sin_0.
    + pose proof (rack_flank_normal r g n O th (IZR j) x z k X 1 HM CB HO ltac:(rewrite EA; exact CA) (or_introl eq_refl)
        ltac:(unfold X; rewrite EA; unfold al; ring) ((a + rk_ded r) / (rk_add r + rk_ded r))) as F.
      destruct (Req_EM_T 1 1) as [_|B]; [exact F|exfalso; apply B; reflexivity].
  - set (a := cos al * (sh * cos al + (PI / 4 - blr + kap) * sin al)).
    set (t := g_angle S + x * (2 * PI / IZR n) + IZR (M + 1 - j - k - 1) * (2 * PI / IZR n) + A - X').
    exists t, ((a + rk_ded r) / (rk_add r + rk_ded r)).
    assert (TAU : g_angle (turned S n x) + IZR (M + 1 - j - k - 1) * (2 * PI / IZR n) + A - t = X') by (unfold t; cbn [turned g_angle]; ring).
    assert (RT : rb * t = m * (IZR n / 2 * sin al + sh * sin al + cos al * (PI / 4 - blg - IZR n / 2 * rel)
                   - cos al * (IZR n / 2 * (th - ga - an) - (x + IZR M - IZR j - IZR k) * PI))).
    { unfold rb, t, X'. rewrite SA, BV, minus_IZR, minus_IZR, minus_IZR, plus_IZR. fold ga.
      unfold inv. rewrite <- ct. field. lra. }
    split; [|split; [|split; [|split; [|split]]]].
    + unfold t. rewrite !minus_IZR, plus_IZR. field. lra.
    + rewrite TD, EM, RT. fold m. unfold HL0, a. rewrite KA.
      set (Q := IZR n / 2 * (th - ga - an)).
      generalize sc. generalize (sin al) (cos al). clearbody Q rel. clear. intros s c sc.
      assert (m * sh * (s * s + c * c) = m * sh) by (rewrite sc; ring). lra.
    + rewrite upper_flank_eq. cbn zeta. rewrite TAU. cbn [turned g_center g_scale g_orient]. rewrite SS, RB, SOO. fold rb.
      generalize (g_center S) (dir O X') (dir' O X'). clear. intros c d d'. destruct c, d, d'. apply vec_eq; vec_simpl; ring.
    + rewrite upper_flank_eq. cbn zeta. rewrite TAU. cbn [turned g_center g_scale g_orient]. rewrite SS, RB, SOO. fold rb.
      unfold rack_upper. rewrite rk_line_eq. unfold rk_mirror. cbn [rack_moved rk_alpha rk_backlash vx vy vz].
      change (rack_level (rack_moved r x) ((a + rk_ded r) / (rk_add r + rk_ded r))) with (rack_level r ((a + rk_ded r) / (rk_add r + rk_ded r))).
      rewrite TD, EA. fold al blr.
      rewrite (meshed_point r g n O th (IZR j)) by assumption. fold T m sh. rewrite EM, <- SCc. fold m.
      replace (vadd (dir O X') (smul t (dir' O X'))) with (vsub (dir O X') (smul (- t) (dir' O X')))
        by (generalize (dir O X') (dir' O X'); clear; intros d d'; destruct d, d'; apply vec_eq; vec_simpl; ring).
      match goal with |- _ = vsub ?q (smul G ?u) => replace (vsub q (smul G u)) with (vadd q (smul (- G) u))
        by (generalize q u; clear; intros d d'; destruct d, d'; apply vec_eq; vec_simpl; ring) end.
      apply (rack_contact_lower O (g_center S) th (- al) rb).
      * rewrite HL. fold an. rewrite cos_neg, sin_neg.
        replace (- - (PI / 4 - tan al * a - blr) + IZR k * PI + - (IZR n / 2) * an + (rk_offset r - x) * PI)
          with (PI / 4 - blr + kap - tan al * a) by (unfold kap; ring).
        unfold rb. transitivity (m * (IZR n / 2) * cos al + m * (sh * cos al + (PI / 4 - blr + kap) * sin al - a / cos al)).
        { unfold a. field. lra. }
        replace (a / cos al) with (a * cos al + a * (tan al * sin al)).
        2:{ unfold tan. transitivity (a * (sin al * sin al + cos al * cos al) / cos al); [field; lra|rewrite sc; field; lra]. }
        ring.
      * rewrite HL. fold an. rewrite cos_neg, sin_neg.
        replace (- - (PI / 4 - tan al * a - blr) + IZR k * PI + - (IZR n / 2) * an + (rk_offset r - x) * PI)
          with (PI / 4 - blr + kap - tan al * a) by (unfold kap; ring).
        replace (rb * - t) with (- (rb * t)) by ring.
        rewrite RT. unfold G. rewrite KA.
        replace (tan al * a) with (sh * sin al * cos al + (PI / 4 - blr + kap) * (sin al * sin al)).
        2:{ unfold a, tan. field. lra. }
        rewrite KA. set (Q := IZR n / 2 * (th - ga - an)). unfold a. rewrite KA. fold Q.
        generalize sc. generalize (sin al) (cos al). clearbody Q rel. clear. intros s c sc.
        field.
    + replace (dir' O X') with (dir' (g_orient (turned S n x)) X') by (cbn [turned g_orient]; rewrite SOO; reflexivity).
      apply upper_flank_normal; [cbn [turned g_orient]; rewrite SOO; exact HO|].
      rewrite TAU. replace (X' - X') with 0 by ring. apply sin_0.
    + pose proof (rack_flank_normal r g n O th (IZR j) x z k X' (-1) HM CB HO ltac:(rewrite EA; exact CA) (or_intror eq_refl)
        ltac:(unfold X'; rewrite EA; unfold al; ring) ((a + rk_ded r) / (rk_add r + rk_ded r))) as F.
      destruct (Req_EM_T (-1) 1) as [B|_]; [lra|exact F].
Qed.

(** ** C72 *)

(** Play on each side, and the level of the points of tangency. *)
Definition rack_play (g : igear) (r : rack) (n : Z) (z : R) : R :=
  ip_module (ig_in g) * cos (ip_alpha (ig_in g)) *
  (ip_backlash (ig_in g) + IZR n / 2 * relief g z + rk_backlash r).
Definition tangency_level (g : igear) (r : rack) (n : Z) (z : R) : R :=
  ip_module (ig_in g) * (ip_shift (ig_in g) + sin (ip_alpha (ig_in g)) *
    (IZR n / 2 * sin (ip_alpha (ig_in g)) - cos (ip_alpha (ig_in g)) *
       (ip_backlash (ig_in g) + IZR n / 2 * relief g z + rk_backlash r))).

(** What a rack and a gear must share. *)
Definition rack_fits (g : igear) (r : rack) : Prop :=
  rk_module r = ip_module (ig_in g) /\ rk_alpha r = ip_alpha (ig_in g) /\
  tan (rk_beta r) = tan (ip_helix (ig_in g)) /\ cos (rk_beta r) <> 0 /\ rk_add r + rk_ded r <> 0.

(** mesh_to fails exactly for a target direction along the gear's axis. *)
Theorem C72_total r g n target off : rackable g n ->
  ((exists r', rk_mesh_to r g target off = Ok r') <-> off_axis target (k_trf (ig_core g))).
Proof.
  intros H. split.
  - intros (r' & E). apply (mesh_to_meshed r g n target off r' H E).
  - intros NA. unfold rk_mesh_to, normalize_r.
    destruct (Req_EM_T (norm (project_plane target (g_z_axis (k_trf (ig_core g))))) 0) as [E|_]; [|eexists; reflexivity].
    exfalso. pose proof (norm_pos _ NA). lra.
Qed.

(** Where the rack is: its reference line is at the distance pitch radius + profile shift from the
    gear's axis, on the side of the target direction, perpendicular to it and to the axis, teeth
    pointing to the axis. *)
Theorem C72_reference_line r g n target off r' : rackable g n -> rk_mesh_to r g target off = Ok r' ->
  cos (rk_beta r) <> 0 ->
  let T := k_trf (ig_core g) in
  exists u t, norm u = 1 /\ norm t = 1 /\ dot u t = 0 /\ dot u (g_z_axis T) = 0 /\ dot t (g_z_axis T) = 0 /\
    (exists l, 0 < l /\ project_plane target (g_z_axis T) = smul l u) /\
    forall y z a b,
      let d := vsub (rk_point r' y z (V a b 0)) (g_center T) in
      dot d u = (IZR n / 2 + ip_shift (ig_in g)) * ip_module (ig_in g) - rk_module r * a /\
      dot d (g_z_axis T) = rk_module r * z /\
      exists y0, dot d t = y0 - rk_module r * (b + y).
Proof.
  intros H MT CB T. destruct (mesh_to_meshed _ _ _ _ _ _ H MT) as (ME & OA & EM & _ & _ & _ & EB & _).
  cbn zeta in ME. fold T in ME, OA. set (th := angle_xy (vmat target (g_orient T))) in *. set (O := g_orient T) in *.
  pose proof (ra_orient _ _ H) as HO. fold T O in HO.
  assert (UZ : forall a, dot (dir O a) (col3 O) = 0) by (intros a; apply dir_z, HO).
  assert (TZ : forall a, dot (dir' O a) (col3 O) = 0) by (intros a; apply dir'_z, HO).
  assert (UU : dot (dir O th) (dir O th) = 1) by (apply dir_dot, HO).
  assert (UT : dot (dir O th) (dir' O th) = 0) by (rewrite dir_dir'_angle by exact HO; replace (th - th) with 0 by ring; apply sin_0).
  assert (TT : dot (dir' O th) (dir' O th) = 1) by (rewrite dir'_dir'_angle by exact HO; replace (th - th) with 0 by ring; apply cos_0).
  assert (ZZ : dot (col3 O) (col3 O) = 1) by (apply col3_unit, HO).
  exists (dir O th), (dir' O th). change (g_z_axis T) with (col3 O).
  split; [apply norm_dir, HO|]. split; [apply norm_dir', HO|]. split; [exact UT|]. split; [apply UZ|]. split; [apply TZ|].
  split; [exists (norm (project_plane target (col3 O))); split; [apply norm_pos, OA|apply project_dir, HO]|].
  intros y z a b. cbn zeta.
  assert (CB' : cos (rk_beta r') <> 0) by (rewrite EB; exact CB).
  pose proof (meshed_point r' g n O th off 0 y z a b ME CB') as MP.
  replace (rack_moved r' 0) with r' in MP by (destruct r'; unfold rack_moved; cbn; rewrite Rminus_0_r; reflexivity).
  rewrite MP, EM. fold T.
  set (w := (IZR n / 2 + ip_shift (ig_in g)) * ip_module (ig_in g)).
  set (Y := b + y + rack_lean r' z + (rk_offset r' - 0) * PI).
  match goal with |- context [vsub (vadd (vadd ?c ?p) ?q) ?c] =>
    replace (vsub (vadd (vadd c p) q) c) with (vadd p q) by (generalize c p q; clear; intros v1 v2 v3; destruct v1, v2, v3; apply vec_eq; vec_simpl; ring) end.
  rewrite !dot_vadd_l, !dot_vsub_l, !dot_smul_l, UU, UT, TT, ZZ, UZ, TZ.
  rewrite (dot_comm (col3 O) (dir O th)), (dot_comm (col3 O) (dir' O th)), (dot_comm (dir' O th) (dir O th)), UT, UZ, TZ.
  split; [ring|]. split; [ring|].
  exists (- (rk_module r * (rack_lean r' z + (rk_offset r' - 0) * PI))). unfold Y. ring.
Qed.

(** The teeth of the rack: as many as asked for, whole pitches from a reference tooth at 0. *)
Theorem C72_teeth r : (1 <= rk_teeth r)%Z ->
  exists k0, (k0 <= 0 < k0 + rk_teeth r)%Z /\
    forall j, rk_grid r j = IZR (k0 + j) * PI.
Proof.
  intros H. unfold rk_grid, rk_pitch. set (n := rk_teeth r) in *. clearbody n.
  destruct (Z.Even_or_Odd n) as [(q & E)|(q & E)].
  - exists (1 - q)%Z. split; [lia|]. intros j.
    replace ((n + 1) mod 2)%Z with 1%Z by (rewrite E, Z.add_comm, Z.mul_comm, Z_mod_plus_full; reflexivity).
    rewrite E, !plus_IZR, minus_IZR, mult_IZR. field.
  - exists (- q)%Z. split; [lia|]. intros j.
    replace ((n + 1) mod 2)%Z with 0%Z by (replace (n + 1)%Z with ((q + 1) * 2)%Z by lia; rewrite Z_mod_mult; reflexivity).
    rewrite E, !plus_IZR, opp_IZR, mult_IZR. field.
Qed.

(** Rolling: a tooth of the (endless) rack is centred on the line from the gear's axis along the
    target direction exactly when a tooth gap of the gear is, whatever the roll, if and only if the
    offset is a whole number. *)
Definition rack_tooth_at (r : rack) (T : gtransform) (d : vec) : Prop :=
  exists (k : Z) (l : R), rack_centre r 0 k = vadd (g_center T) (smul l (project_plane d (g_z_axis T))).

Theorem C72_tooth_in_gap_iff r g n target off r' : rackable g n -> rk_mesh_to r g target off = Ok r' ->
  cos (rk_beta r) <> 0 -> 0 < rk_module r -> 0 <= rk_height r ->
  let T := k_trf (ig_core g) in
  ((forall x, rack_tooth_at (rack_moved r' x) T target <-> gap_at (turned T n x) n target)
   <-> exists j : Z, off = IZR j).
Proof.
  intros H MT CB M0 Hh T. destruct (mesh_to_meshed _ _ _ _ _ _ H MT) as (ME & OA & EM & _ & _ & _ & EB & _ & _ & EH & _).
  cbn zeta in ME. fold T in ME, OA. set (th := angle_xy (vmat target (g_orient T))) in *.
  set (O := g_orient T) in *. pose proof (ra_orient _ _ H) as HO. fold T O in HO. pose proof PI_RGT_0 as PP.
  assert (CB' : cos (rk_beta r') <> 0) by (rewrite EB; exact CB).
  assert (TT : dot (dir' O th) (dir' O th) = 1) by (rewrite dir'_dir'_angle by exact HO; replace (th - th) with 0 by ring; apply cos_0).
  assert (UT : dot (dir O th) (dir' O th) = 0) by (rewrite dir_dir'_angle by exact HO; replace (th - th) with 0 by ring; apply sin_0).
  pose proof (norm_pos _ OA) as NP. change (g_z_axis T) with (col3 O) in NP.
  pose proof (project_dir O target HO) as PD. fold th in PD. set (q := norm (project_plane target (col3 O))) in *.
  pose proof ME as (EP & ER & M & EF).
  set (ph := (th - g_angle (k_trf (ig_core g))) / (2 * PI / IZR n)) in EF.
  assert (LN : rack_lean r' 0 = 0).
  { unfold rack_lean. rewrite EH, EM. destruct (rk_herring r'); [|ring].
    assert (0 <= rk_height r / rk_module r) by (apply Rmult_le_pos; [lra|apply Rlt_le, Rinv_0_lt_compat, M0]).
    rewrite Rabs_right by lra. ring. }
  assert (TO : forall x, rack_tooth_at (rack_moved r' x) T target <-> exists k : Z, IZR k * PI + rack_lean r' 0 + (rk_offset r' - x) * PI = 0).
  { intros x. unfold rack_tooth_at, rack_centre.
    assert (C : forall k, rk_point (rack_moved r' x) (IZR k * PI) 0 ORIGIN =
      vadd (g_center T) (vsub (smul ((IZR n / 2 + ip_shift (ig_in g)) * ip_module (ig_in g)) (dir O th))
         (smul (rk_module r' * (IZR k * PI + rack_lean r' 0 + (rk_offset r' - x) * PI)) (dir' O th)))).
    { intros k. change ORIGIN with (V 0 0 0). rewrite (meshed_point r' g n O th off) by assumption. fold T.
      generalize (g_center T) (dir O th) (dir' O th) (col3 O). clear. intros c d d' e. destruct c, d, d', e. apply vec_eq; vec_simpl; ring. }
    split.
    - intros (k & l & E). rewrite C in E. change (g_z_axis T) with (col3 O) in E. rewrite PD in E.
      apply (f_equal (fun v => dot v (dir' O th))) in E.
      rewrite !dot_vadd_l, !dot_vsub_l, !dot_smul_l, UT, TT in E.
      exists k. rewrite EM in E. apply (Rmult_eq_reg_l (rk_module r)); [lra|lra].
    - intros (k & E). exists k, ((IZR n / 2 + ip_shift (ig_in g)) * ip_module (ig_in g) / q). rewrite C, E.
      change (g_z_axis T) with (col3 O). rewrite PD, smul_smul. fold q.
      replace ((IZR n / 2 + ip_shift (ig_in g)) * ip_module (ig_in g) / q * q) with ((IZR n / 2 + ip_shift (ig_in g)) * ip_module (ig_in g)) by (field; lra).
      generalize (g_center T) (dir O th) (dir' O th). clear. intros c d d'. destruct c, d, d'. apply vec_eq; vec_simpl; ring. }
  assert (G : forall x, gap_at (turned T n x) n target <-> exists k : Z, ph - x = IZR k + 1 / 2).
  { intros x. rewrite (gap_at_iff (turned T n x) n target (ra_n _ _ H) HO (turned_off _ _ _ _ OA)).
    rewrite (turned_phase T n x _ (ra_n _ _ H)). cbn [turned g_orient]. fold O th.
    assert (N : 0 < IZR n) by (apply IZR_lt, (ra_n _ _ H)).
    replace ((g_angle T - th) / (2 * PI / IZR n)) with (- ph) by (unfold ph; fold T; field; lra).
    split; intros (k & E); exists (- k - 1)%Z; rewrite minus_IZR, opp_IZR; lra. }
  rewrite LN in TO.
  assert (TO2 : forall x, rack_tooth_at (rack_moved r' x) T target <-> exists k : Z, ph - x + off = IZR k + 1 / 2).
  { intros x. rewrite TO. split; intros (k & E).
    - exists (M - k)%Z. rewrite minus_IZR. apply (Rmult_eq_reg_r PI); [|lra]. rewrite EF in E. lra.
    - exists (M - k)%Z. rewrite minus_IZR, EF. replace (ph - IZR M - 1 / 2 + off - x) with (ph - x + off - IZR M - 1 / 2) by ring. rewrite E. ring. }
  split.
  - intros A. destruct (proj2 (A (ph - 1 / 2))) as (k & l & E).
    + apply G. exists 0%Z. lra.
    + destruct (proj1 (TO2 (ph - 1 / 2)) (ex_intro _ k (ex_intro _ l E))) as (k' & E'). exists k'. lra.
  - intros (j & ->) x. rewrite TO2, G. split; intros (k & E).
    + exists (k - j)%Z. rewrite minus_IZR. lra.
    + exists (k + j)%Z. rewrite plus_IZR. lra.
Qed.

(** Spur and helical gears: flanks in contact along the whole height, conjugate, with the same play
    on both sides. *)
Theorem C72_conjugate r g n target j r' s2 z : rackable g n -> rk_mesh_to r g target (IZR j) = Ok r' ->
  rack_fits g r -> rk_herring r = false -> inv (ip_alpha (ig_in g)) <= PI -> tooth_solved g s2 ->
  conjugate_rack (section_trf g z) n (unit_base g) (- section_angle_base g z s2) r' z
    (rack_play g r n z) (ip_alpha (ig_in g)) (tangency_level g r n z).
Proof.
  intros H MT (FM & FA & FB & FC & FD) NH HI HS.
  destruct (mesh_to_meshed _ _ _ _ _ _ H MT) as (ME & OA & EM & EA & E1 & E2 & EB & EK & EH & _). cbn zeta in ME.
  destruct (rackable_values _ _ H) as (_ & _ & _ & _ & _ & _ & _ & SP & _).
  assert (N : 0 < IZR n) by (apply IZR_lt, (ra_n _ _ H)).
  unfold rack_play, tangency_level. rewrite <- EK.
  apply (rack_conjugate g n r' _ _ j (fun z => z * k_spiral (ig_core g)) z s2 H eq_refl ME);
    try assumption; try congruence.
  unfold rack_lean. rewrite EH, NH, EB, FB, SP. field. lra.
Qed.

(** Herringbone gears and racks of the same height, with the gear standing on its anchor. *)
Theorem C72_herringbone r g n target j r' s2 z : rackable g n -> rk_mesh_to r g target (IZR j) = Ok r' ->
  rack_fits g r -> rk_herring r = true -> inv (ip_alpha (ig_in g)) <= PI -> tooth_solved g s2 ->
  let mid := rk_height r / rk_module r / 2 in
  let angle := fun y => (mid - Rabs (mid - y)) * k_spiral (ig_core g) in
  conjugate_rack (hsection g angle z) n (unit_base g) (- section_angle_base g z s2) r' z
    (rack_play g r n z) (ip_alpha (ig_in g)) (tangency_level g r n z).
Proof.
  intros H MT (FM & FA & FB & FC & FD) NH HI HS mid angle.
  destruct (mesh_to_meshed _ _ _ _ _ _ H MT) as (ME & OA & EM & EA & E1 & E2 & EB & EK & EH & EG & _). cbn zeta in ME.
  destruct (rackable_values _ _ H) as (_ & _ & _ & _ & _ & _ & _ & SP & _).
  assert (N : 0 < IZR n) by (apply IZR_lt, (ra_n _ _ H)).
  unfold rack_play, tangency_level. rewrite <- EK.
  apply (rack_conjugate g n r' _ _ j angle z s2 H eq_refl ME);
    try assumption; try congruence.
  unfold rack_lean, angle. rewrite EH, NH, EB, FB, SP, EG, EM. fold mid. field. lra.
Qed.

(** HelicalGear and HelicalRack made from the same normal data fit, at any height. *)
Lemma helical_rackable p hb n : ip_teeth p = IZR n -> (0 < n)%Z -> 0 < ip_module p -> 0 < cos (ip_helix p) ->
  0 <= ip_alpha p < PI / 2 -> rackable (h_gear (helical_new p hb)) n.
Proof.
  intros Ht Hn Hm Hc Ha. assert (N : 0 < IZR n) by (apply IZR_lt; exact Hn).
  assert (N2 : 0 < ip_teeth p) by lra.
  destruct (helical_core p hb) as (zs & EC).
  assert (EI : ig_in (h_gear (helical_new p hb)) = helical_param p false) by (rewrite helical_in; apply helical_normalise, N2).
  assert (TA : 0 <= tan (ip_alpha p) / cos (ip_helix p)).
  { apply Rmult_le_pos; [|apply Rlt_le, Rinv_0_lt_compat, Hc]. unfold tan. apply Rmult_le_pos.
    - apply sin_ge_0; pose proof PI_RGT_0; lra.
    - apply Rlt_le, Rinv_0_lt_compat, cos_gt_0; pose proof PI_RGT_0; lra. }
  constructor; rewrite ?EI; cbn [helical_param ip_teeth ip_module ip_cone ip_alpha]; try assumption; try reflexivity.
  - exists zs. rewrite EC. unfold ig_new. rewrite helical_normalise by exact N2. reflexivity.
  - apply Rdiv_lt_0_compat; assumption.
  - split; [|apply atan_bound]. destruct TA as [TA|<-]; [|rewrite atan_0; lra].
    rewrite <- atan_0. apply Rlt_le, atan_increasing, TA.
  - rewrite EC. unfold ig_new. rewrite helical_normalise by exact N2. apply rotation_I.
  - rewrite EC. unfold ig_new. rewrite helical_normalise by exact N2. reflexivity.
Qed.

Lemma rackable_place g n T : rackable g n -> orthogonal (g_orient T) -> g_scale T = ip_module (ig_in g) ->
  rackable (ig_place g T) n.
Proof.
  intros H O S. destruct (ra_core _ _ H) as (zs & E).
  constructor; try apply H; try assumption. exists zs. cbn [ig_place ig_in ig_core with_trf k_trf]. rewrite E. reflexivity.
Qed.

Theorem C72_helical_pair p hb n T teeth pos off orient bl target j r' s2 z :
  ip_teeth p = IZR n -> (0 < n)%Z -> 0 < ip_module p -> 0 < cos (ip_helix p) -> 0 <= ip_alpha p < PI / 2 ->
  0 < ip_height p -> 0 < ip_add p + ip_ded p -> (hb = true -> ip_zanchor p = 0) ->
  orthogonal (g_orient T) -> g_scale T = ip_module p / cos (ip_helix p) ->
  let h := helical_new p hb in let g := ig_place (h_gear h) T in
  let r := helical_rack_new teeth (ip_height p) (ip_alpha p) pos off orient (ip_module p) (ip_add p) (ip_ded p)
             (ip_helix p) bl hb in
  rk_mesh_to r g target (IZR j) = Ok r' -> inv (ip_alpha (ig_in g)) <= PI -> tooth_solved g s2 ->
  conjugate_rack (hsection g (h_angle h) z) n (unit_base g) (- section_angle_base g z s2) r' z
    (rack_play g r n z) (ip_alpha (ig_in g)) (tangency_level g r n z).
Proof.
  intros Ht Hn Hm Hc Ha Hh Had Hz HO HS h g r MT HI TS.
  assert (N : 0 < IZR n) by (apply IZR_lt; exact Hn). assert (N2 : 0 < ip_teeth p) by lra.
  assert (EI : ig_in (h_gear h) = helical_param p false) by (unfold h; rewrite helical_in; apply helical_normalise, N2).
  assert (RA : rackable g n).
  { apply rackable_place; [apply helical_rackable; assumption|exact HO|]. fold h. rewrite EI. exact HS. }
  assert (EI2 : ig_in g = helical_param p false) by exact EI.
  assert (FI : rack_fits g r).
  { unfold rack_fits. rewrite EI2. cbn [helical_param ip_module ip_alpha ip_helix r helical_rack_new rk_module rk_alpha rk_beta rk_add rk_ded].
    repeat split; try reflexivity; [lra|]. apply Rgt_not_eq. replace (ip_add p * cos (ip_helix p) + ip_ded p * cos (ip_helix p)) with ((ip_add p + ip_ded p) * cos (ip_helix p)) by ring.
    apply Rmult_lt_0_compat; assumption. }
  destruct (helical_core p hb) as (zs & EC). fold h in EC.
  assert (KS : k_spiral (ig_core g) = k_spiral (ig_core (ig_new (helical_param p false)))) by (unfold g; cbn [ig_place ig_core with_trf k_spiral]; rewrite EC; reflexivity).
  destruct hb.
  - pose proof (C72_herringbone r g n target j r' s2 z RA MT FI eq_refl HI TS) as Q. cbn zeta in Q.
    replace (hsection g (h_angle h) z) with
      (hsection g (fun y => (rk_height r / rk_module r / 2 - Rabs (rk_height r / rk_module r / 2 - y)) * k_spiral (ig_core g)) z); [exact Q|].
    unfold hsection. f_equal. f_equal. unfold h, helical_new, herringbone_mod. cbn [h_angle]. rewrite KS.
    assert (EM : (k_z_last (ig_core (ig_new (helical_param p false))) + k_z_first (ig_core (ig_new (helical_param p false)))) / 2 = rk_height r / rk_module r / 2).
    { unfold ig_new, k_z_last, k_z_first. rewrite helical_normalise by exact N2.
      cbn [ig_core calc_params k_zvals last nth helical_param ip_height ip_module ip_zanchor r helical_rack_new rk_height rk_module].
      rewrite (Hz eq_refl). field. lra. }
    rewrite EM. reflexivity.
  - pose proof (C72_conjugate r g n target j r' s2 z RA MT FI eq_refl HI TS) as Q.
    replace (hsection g (h_angle h) z) with (section_trf g z); [exact Q|].
    unfold hsection, section_trf. f_equal.
Qed.

(** Interference: if the rack's tip stays below the points of tangency, flanks within the rack's
    height meet genuine involute points ([0 <= t]); otherwise, at some roll, the tip of the rack is
    where the gear has no involute. *)
Theorem C72_no_interference S n r A rk z G al H : conjugate_rack S n r A rk z G al H ->
  0 < g_scale S * r -> 0 < sin al -> 0 < rk_module rk -> 0 < rk_add rk + rk_ded rk ->
  rk_module rk * rk_add rk <= H ->
  exists m u u', norm u = 1 /\ norm u' = 1 /\ forall x k,
    (exists t s, (s <= 1 -> 0 <= t) /\
       lower_flank (turned S n x) n r A (m - k) t = vadd (rack_lower (rack_moved rk x) z k s) (smul G u)) /\
    (exists t s, (s <= 1 -> 0 <= t) /\
       upper_flank (turned S n x) n r A (m - k - 1) t = vsub (rack_upper (rack_moved rk x) z k s) (smul G u')).
Proof.
  intros (m & e & e' & u & B & u' & B' & N & N' & _ & _ & CT) R S1 M0 D0 HL.
  exists m, u, u'. split; [exact N|]. split; [exact N'|]. intros x k.
  assert (K : forall t s, rk_module rk * rack_level rk s = H - g_scale S * r * t * sin al -> s <= 1 -> 0 <= t).
  { intros t s E Hs. assert (rack_level rk s <= rk_add rk) by (unfold rack_level; nra).
    assert (rk_module rk * rack_level rk s <= rk_module rk * rk_add rk) by (apply Rmult_le_compat_l; lra).
    assert (P : 0 < g_scale S * r * sin al) by (apply Rmult_lt_0_compat; assumption).
    apply (Rmult_le_reg_l (g_scale S * r * sin al)); [exact P|]. lra. }
  destruct (CT x k) as [(t & s & _ & E & _ & E2 & _) (t' & s' & _ & E' & _ & E2' & _)].
  split; [exists t, s|exists t', s']; (split; [eauto|assumption]).
Qed.

Theorem C72_interference S n r A rk z G al H : conjugate_rack S n r A rk z G al H -> (0 < n)%Z ->
  0 < g_scale S * r -> 0 < sin al -> 0 < rk_module rk -> 0 < rk_add rk + rk_ded rk ->
  H < rk_module rk * rk_add rk ->
  exists m u x t, norm u = 1 /\ t < 0 /\
    lower_flank (turned S n x) n r A m t = vadd (rack_lower (rack_moved rk x) z 0 1) (smul G u).
Proof.
  intros (m & e & e' & u & B & u' & B' & N & N' & _ & _ & CT) Hn R S1 M0 D0 HL.
  pose proof PI_RGT_0 as PP. assert (NN : 0 < IZR n) by (apply IZR_lt; exact Hn).
  assert (P : 0 < g_scale S * r * sin al) by (apply Rmult_lt_0_compat; assumption).
  set (t := (H - rk_module rk * rk_add rk) / (g_scale S * r * sin al)).
  assert (T0 : t < 0).
  { unfold t, Rdiv. apply (Rmult_lt_reg_r (g_scale S * r * sin al)); [exact P|].
    rewrite Rmult_assoc, Rinv_l by lra. lra. }
  destruct (CT (e - t / (2 * PI / IZR n)) 0%Z) as [(t1 & s & Et & E & _ & E2 & _) _].
  assert (TT : t1 = t) by (rewrite Et; field; lra). rewrite TT in *.
  assert (ES : s = 1).
  { assert (EQ : rk_module rk * rack_level rk s = rk_module rk * rk_add rk).
    { rewrite E. unfold t. set (q := g_scale S * r) in *. field. split; lra. }
    apply Rmult_eq_reg_l in EQ; [|lra]. unfold rack_level in EQ.
    apply (Rmult_eq_reg_r (rk_add rk + rk_ded rk)); lra. }
  rewrite ES in E2. exists (m - 0)%Z, u, (e - t / (2 * PI / IZR n)), t. split; [exact N|]. split; [exact T0|exact E2].
Qed.

(** A helical herringbone gear with 20 teeth and its rack. *)
Definition ex_hp : iparam := mkIP 20 10 (PI / 6) 0 (V 1 2 3) (1 / 3) 2 false 0 0 0 (1 / 10) 1 (5 / 4) (PI / 9) (1 / 50) 0 false 0.
Example C72_example : exists s2 r',
  let h := helical_new ex_hp true in let g := h_gear h in
  let r := helical_rack_new 12 10 (PI / 9) ORIGIN 0 UNIT3X3 2 1 (5 / 4) (PI / 6) (1 / 100) true in
  rackable g 20 /\ rk_mesh_to r g (V 1 1 5) 3 = Ok r' /\ tooth_solved g s2 /\
  conjugate_rack (hsection g (h_angle h) 2) 20 (unit_base g) (- section_angle_base g 2 s2) r' 2
    (rack_play g r 20 2) (ip_alpha (ig_in g)) (tangency_level g r 20 2) /\
  0 < rack_play g r 20 2.
Proof.
  pose proof PI_RGT_0 as PP. pose proof PI2_3_2 as P3. pose proof cos_20deg as C2.
  assert (C6 : 0 < cos (PI / 6)) by (apply cos_gt_0; lra).
  assert (TT : 0 < tan (PI / 9)) by (apply tan_gt_0; lra).
  set (h := helical_new ex_hp true). set (g := h_gear h).
  assert (N2 : 0 < ip_teeth ex_hp) by (cbn; lra).
  assert (EI : ig_in g = helical_param ex_hp false) by (unfold g, h; rewrite helical_in; apply helical_normalise, N2).
  assert (RA : rackable g 20) by (apply helical_rackable; cbn; try lia; try lra).
  destruct (ra_alpha _ _ RA) as (A0 & A1).
  assert (A2 : 0 <= ip_alpha (ig_in g) <= PI / 3).
  { split; [exact A0|]. rewrite EI. cbn [helical_param ip_alpha ex_hp ip_helix].
    replace (PI / 3) with (atan (tan (PI / 3))) by (apply atan_tan; lra).
    destruct (Rle_lt_dec (tan (PI / 9) / cos (PI / 6)) (tan (PI / 3))) as [[L|E]|L].
    - apply Rlt_le, atan_increasing, L.
    - rewrite E. lra.
    - exfalso. rewrite tan_PI3 in L. rewrite cos_PI6 in *. 
      assert (tan (PI / 9) < tan (PI / 4)) by (apply tan_increasing; lra). rewrite tan_PI4 in *.
      assert (S3 : sqrt 3 * sqrt 3 = 3) by (apply sqrt_sqrt; lra). assert (0 < sqrt 3) by (apply sqrt_lt_R0; lra).
      apply (Rmult_lt_compat_r (sqrt 3 / 2)) in L; [|lra].
      replace (tan (PI / 9) / (sqrt 3 / 2) * (sqrt 3 / 2)) with (tan (PI / 9)) in L by (field; lra). nra. }
  assert (HI : inv (ip_alpha (ig_in g)) <= PI).
  { assert (tan (ip_alpha (ig_in g)) <= tan (PI / 3)).
    { destruct A2 as (B0 & [B|B]); [apply Rlt_le, tan_increasing; lra|rewrite B; lra]. }
    rewrite tan_PI3 in *. assert (sqrt 3 < 2).
    { rewrite <- (sqrt_square 2) by lra. apply sqrt_lt_1; lra. }
    unfold inv. lra. }
  destruct (C42_solver_value_exists (ip_teeth (ig_in g) / 2) (ip_alpha (ig_in g))) as (s2 & S2);
    [rewrite EI; cbn; lra|exact (conj A0 A1)|].
  set (r := helical_rack_new 12 10 (PI / 9) ORIGIN 0 UNIT3X3 2 1 (5 / 4) (PI / 6) (1 / 100) true).
  assert (OA : off_axis (V 1 1 5) (k_trf (ig_core g))).
  { unfold g, h. destruct (helical_core ex_hp true) as (zs & EC). rewrite EC. unfold ig_new. rewrite helical_normalise by exact N2.
    unfold off_axis. cbn [with_zvals ig_core calc_params k_trf]. unfold g_z_axis, col3, project_plane. cbn. intros E.
    apply (f_equal vx) in E. vec_simpl. lra. }
  destruct (proj2 (C72_total r g 20 (V 1 1 5) 3 RA) OA) as (r' & MT).
  exists s2, r'. cbn zeta. fold h g r. split; [exact RA|]. split; [exact MT|]. split; [exact S2|]. split.
  - assert (PL : ig_place g (k_trf (ig_core g)) = g) by (destruct g as [i k]; destruct k; reflexivity).
    pose proof (C72_helical_pair ex_hp true 20 (k_trf (ig_core g)) 12 ORIGIN 0 UNIT3X3 (1 / 100) (V 1 1 5) 3 r' s2 2) as Q.
    cbn zeta in Q. fold h g in Q. rewrite PL in Q. apply Q; clear Q; try assumption; try (cbn; lra); try lia.
    + apply (ra_orient _ _ RA).
    + rewrite (ra_scale _ _ RA), EI. reflexivity.
  - change (0 < rack_play g r 20 2). assert (RE : relief g 2 = 0).
    { unfold relief, ig_pia, crowning. rewrite EI. cbn [helical_param ip_crown ex_hp]. unfold Rdiv. ring. }
    unfold rack_play. rewrite RE. repeat apply Rmult_lt_0_compat; [apply (ra_module _ _ RA)|apply cos_gt_0; lra|].
    rewrite EI. cbn. lra.
Qed.
