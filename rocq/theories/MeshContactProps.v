(** Property C45, continued (contact without interruption, tilted target directions), and concrete
    pairs for C42, C45 and C49. *)
From Coq Require Import Nsatz Reals Lra Psatz Lia ZArith List Bool.
From Verif Require Import Num Vec Transform TransformProps Params ParamsProps Coords CoordsProps Gen GenProps
  Interp Curve CurveLem CurveProps ArcLem ArcProps Chain GearMath Tooth Wrapper GearLem MeshAngleProps MeshLem
  MeshNormal MeshConj MeshProps MeshDistProps.
Import ListNotations.
Open Scope R_scope.

Lemma smul_unit_inj k l n : norm n = 1 -> smul k n = smul l n -> k = l.
Proof.
  intros H E. apply (f_equal (fun v => dot v n)) in E. rewrite !dot_smul_l in E.
  assert (D : dot n n = 1).
  { replace (dot n n) with (norm n * norm n) by (unfold norm; apply sqrt_sqrt, dot_nonneg). rewrite H. ring. }
  rewrite D in E. lra.
Qed.

(** String lengths in contact: together with the gap they fill the distance [L] between the two
    points of tangency. *)
Lemma strings_fill n B1 B2 L a b g P1 P2 : norm n = 1 -> B2 = vadd B1 (smul L n) ->
  P1 = vadd B1 (smul a n) -> P2 = vsub B2 (smul b n) -> P2 = vadd P1 (smul g n) -> a + b + g = L.
Proof.
  intros N -> -> -> E. apply (smul_unit_inj _ _ n N).
  destruct B1 as [x y z], n as [u v w]. unfold vsub, vadd, smul in *. cbn [vx vy vz] in *.
  injection E as E1 E2 E3. f_equal; lra.
Qed.

(** If the tangent segment is longer than a base pitch (plus the gap), then in every position some
    pair of lower flanks (t1, t2 >= 0: points that exist on the flanks) faces each other across
    exactly the gap, along the common normal [n]; with gap 0 they touch. *)
Theorem C45_never_interrupted T1 T2 n1 n2 r1 r2 A1 A2 gl gu L :
  conjugate_external T1 T2 n1 n2 r1 r2 A1 A2 gl gu L -> (0 < n1)%Z ->
  0 < g_scale T1 * r1 -> 0 < g_scale T2 * r2 ->
  g_scale T1 * r1 * (2 * PI / IZR n1) + gl <= L ->
  exists n, norm n = 1 /\ forall x, exists i k t1 t2, 0 <= t1 /\ 0 <= t2 /\
    lower_flank (turned T2 n2 (- x)) n2 r2 A2 k t2 =
      vadd (lower_flank (turned T1 n1 x) n1 r1 A1 i t1) (smul gl n) /\
    normal_to (lower_flank (turned T1 n1 x) n1 r1 A1 i) n t1 /\
    normal_to (lower_flank (turned T2 n2 (- x)) n2 r2 A2 k) n t2.
Proof.
  intros (m & e & e' & n & B1 & B2 & n' & B1' & B2' & N & _ & _ & _ & _ & _ & EB & _ & CT) Hn R1 R2 HL.
  exists n. split; [exact N|]. intros x.
  pose proof (archimed (x - e)) as [U1 U2]. set (k := (up (x - e) - 1)%Z).
  destruct (CT x (k + 1)%Z) as [(t1 & t2 & Et & E1 & E2 & E3 & V1 & V2) _].
  exists (m - (k + 1))%Z, (k + 1)%Z, t1, t2.
  pose proof (strings_fill n B1 B2 L _ _ gl _ _ N EB E1 E2 E3) as SF.
  pose proof PI_RGT_0 as PP. assert (N1 : 0 < IZR n1) by (apply IZR_lt; exact Hn).
  assert (P1 : 0 < 2 * PI / IZR n1) by (apply Rdiv_lt_0_compat; lra).
  assert (K : 0 <= e - x + IZR (k + 1) <= 1).
  { unfold k. replace (up (x - e) - 1 + 1)%Z with (up (x - e)) by ring. lra. }
  set (p1 := 2 * PI / IZR n1) in *. set (rb1 := g_scale T1 * r1) in *. set (rb2 := g_scale T2 * r2) in *.
  assert (T1b : 0 <= t1 <= p1) by (rewrite Et; split; nra).
  split; [lra|]. split; [|split; [exact E3|split; assumption]].
  assert (rb1 * t1 <= rb1 * p1) by (apply Rmult_le_compat_l; lra).
  assert (0 <= rb2 * t2) by lra. apply (Rmult_le_reg_l rb2); lra.
Qed.

(** If the tangent segment is shorter than the gap (a negative root in particular), the facing
    points never exist on both flanks at once. *)
Theorem C45_no_contact T1 T2 n1 n2 r1 r2 A1 A2 gl gu L :
  conjugate_external T1 T2 n1 n2 r1 r2 A1 A2 gl gu L ->
  0 < g_scale T1 * r1 -> 0 < g_scale T2 * r2 -> L < gl ->
  exists m n, norm n = 1 /\ forall x k, exists t1 t2,
    lower_flank (turned T2 n2 (- x)) n2 r2 A2 k t2 =
      vadd (lower_flank (turned T1 n1 x) n1 r1 A1 (m - k) t1) (smul gl n) /\
    ~ (0 <= t1 /\ 0 <= t2).
Proof.
  intros (m & e & e' & n & B1 & B2 & n' & B1' & B2' & N & _ & _ & _ & _ & _ & EB & _ & CT) R1 R2 HL.
  exists m, n. split; [exact N|]. intros x k.
  destruct (CT x k) as [(t1 & t2 & _ & E1 & E2 & E3 & _) _].
  exists t1, t2. split; [exact E3|].
  pose proof (strings_fill n B1 B2 L _ _ gl _ _ N EB E1 E2 E3) as SF.
  intros [X Y]. assert (0 <= g_scale T1 * r1 * t1) by (apply Rmult_le_pos; lra).
  assert (0 <= g_scale T2 * r2 * t2) by (apply Rmult_le_pos; lra). lra.
Qed.

(** mesh_to does not project the target direction into the plane of rotation: a tilted target
    leaves the gears axially displaced, with the axes closer than intended. *)
Theorem C45_tilted_target_refuted g o n1 n2 sg so a target bl bias g' :
  cylindrical g n1 -> cylindrical o n2 ->
  ip_inside (ig_in g) = false -> ip_inside (ig_in o) = false -> - PI / 2 < a < PI / 2 ->
  ig_mesh_to g o sg so a target bl bias = Ok g' ->
  dot target (g_z_axis (k_trf (ig_core o))) <> 0 ->
  let d := vsub (g_center (k_trf (ig_core g'))) (g_center (k_trf (ig_core o))) in
  let z := g_z_axis (k_trf (ig_core o)) in
  dot d z <> 0 /\ norm (project_plane d z) < mesh_dist (ig_r_base g) (ig_r_base o) false a.
Proof.
  intros H1 H2 I1 I2 Ha MT HZ d z.
  destruct (mesh_to_planar _ _ _ _ _ _ _ _ _ _ _ H1 H2 MT) as (Hn & _ & _ & _ & CE & _).
  rewrite I1, I2 in CE. cbn [orb] in CE.
  assert (Q1 : 0 < ig_r_base g) by (rewrite (r_base_eq _ _ H1); apply Rmult_lt_0_compat; [apply (cy_module _ _ H1)|apply (unit_base_pos _ _ H1)]).
  assert (Q2 : 0 < ig_r_base o) by (rewrite (r_base_eq _ _ H2); apply Rmult_lt_0_compat; [apply (cy_module _ _ H2)|apply (unit_base_pos _ _ H2)]).
  pose proof (cos_pos_in a Ha) as C. set (D := mesh_dist _ _ _ _) in *.
  assert (D0 : 0 < D) by (unfold D, mesh_dist; apply Rdiv_lt_0_compat; lra).
  assert (ED : d = smul D (normalize target)).
  { unfold d. rewrite CE. destruct (g_center _), (normalize target). vec_ring. }
  pose proof (norm_nonneg target) as NN.
  assert (DZ : dot d z = D / norm target * dot target z).
  { rewrite ED. unfold normalize. rewrite smul_smul, dot_smul_l. reflexivity. }
  assert (DD : dot d d = D * D).
  { rewrite ED. unfold normalize. rewrite smul_smul, dot_smul_l, dot_smul_r.
    replace (dot target target) with (norm target * norm target) by (unfold norm; apply sqrt_sqrt, dot_nonneg).
    field. exact Hn. }
  assert (ZZ : dot z z = 1) by (apply col3_unit; apply (cy_orient _ _ H2)).
  assert (NZ : dot d z <> 0).
  { rewrite DZ. fold z in HZ. apply Rmult_integral_contrapositive_currified; [|exact HZ].
    apply Rgt_not_eq. apply Rdiv_lt_0_compat; lra. }
  split; [exact NZ|].
  assert (PN : dot (project_plane d z) (project_plane d z) = D * D - dot d z * dot d z).
  { rewrite <- DD. unfold project_plane.
    replace (dot (vsub d (smul (dot d z) z)) (vsub d (smul (dot d z) z)))
      with (dot d d - 2 * (dot d z * dot d z) + dot d z * dot d z * dot z z)
      by (destruct d, z; vec_simpl; ring). rewrite ZZ. ring. }
  unfold norm. rewrite PN. rewrite <- (sqrt_square D) at 3 by lra.
  assert (0 < dot d z * dot d z) by nra.
  apply sqrt_lt_1; [rewrite <- PN; apply dot_nonneg|nra|lra].
Qed.

(** ** A concrete pair *)
Definition ex_param (z : R) (ring : bool) : iparam :=
  mkIP z 5 0 0 ORIGIN 0 2 false 0 0 0 0 1 (5 / 4) (PI / 9) 0 0 ring 0.

Lemma ex_cyl n ring : (0 < n)%Z -> cylindrical (ig_new (ex_param (IZR n) ring)) n.
Proof.
  intros H. pose proof PI_RGT_0. rewrite <- (Z.abs_eq n) at 2 by lia.
  apply ig_new_cylindrical; try reflexivity; try lia; cbn; lra.
Qed.
Lemma ex_in n ring : (0 < n)%Z -> ig_in (ig_new (ex_param (IZR n) ring)) = ex_param (IZR n) ring.
Proof.
  intros H. unfold ig_new, ip_normalise. cbn [ig_in ip_teeth ex_param].
  destruct (Rlt_dec (IZR n) 0) as [L|L]; [|reflexivity]. apply (lt_IZR n 0) in L. lia.
Qed.
Lemma ex_solved n ring : (0 < n)%Z -> exists s, tooth_solved (ig_new (ex_param (IZR n) ring)) s.
Proof.
  intros H. unfold tooth_solved. rewrite ex_in by exact H. pose proof PI_RGT_0.
  assert (0 < IZR n) by (apply IZR_lt; exact H).
  apply C42_solver_value_exists; cbn; lra.
Qed.
Lemma inv_20deg : inv (PI / 9) <= PI.
Proof.
  pose proof PI_RGT_0. pose proof PI2_3_2.
  assert (tan (PI / 9) < tan (PI / 4)) by (apply tan_increasing; lra).
  rewrite tan_PI4 in *. unfold inv. lra.
Qed.
Lemma cos_20deg : 1 / 2 <= cos (PI / 9).
Proof.
  pose proof PI_RGT_0. rewrite <- cos_PI3. apply cos_decr_1; lra.
Qed.
Lemma ex_r_base n ring : (0 < n)%Z ->
  ig_r_base (ig_new (ex_param (IZR n) ring)) = IZR n * cos (PI / 9).
Proof.
  intros H. rewrite (r_base_eq _ _ (ex_cyl n ring H)). unfold unit_base. rewrite ex_in by exact H.
  cbn [ip_module ip_teeth ip_alpha ex_param]. field.
Qed.

Definition ex_g := ig_new (ex_param 20 false).
Definition ex_o := ig_new (ex_param 40 false).
Definition ex_ring := ig_new (ex_param 60 true).

Lemma norm_RIGHT : norm RIGHT = 1.
Proof. apply norm_unit. vec_simpl. ring. Qed.
Lemma ex_mesh_ok g o sg so a bl bias n1 n2 : cylindrical g n1 -> cylindrical o n2 ->
  exists g', ig_mesh_to g o sg so a RIGHT bl bias = Ok g'.
Proof.
  intros H1 H2. unfold ig_mesh_to, normalize_r. rewrite norm_RIGHT.
  destruct (Req_EM_T 1 0) as [E|_]; [lra|]. cbn [bind].
  rewrite (cy_core _ _ H1), (cy_core _ _ H2). cbn [with_trf calc_params k_cone].
  rewrite (cy_cone _ _ H1), (cy_cone _ _ H2).
  destruct (Req_EM_T 0 0) as [_|B]; [|exfalso; apply B; reflexivity]. eexists. reflexivity.
Qed.
Lemma ex_axis n ring : (0 < n)%Z -> dot RIGHT (g_z_axis (k_trf (ig_core (ig_new (ex_param (IZR n) ring))))) = 0.
Proof.
  intros H. unfold ig_new. change (ip_normalise (ex_param (IZR n) ring)) with (ig_in (ig_new (ex_param (IZR n) ring))).
  rewrite ex_in by exact H. vec_simpl. cbn. ring.
Qed.

(** 20 and 40 teeth, module 2, backlash 0.1 with bias: at distance 60 without backlash; conjugate. *)
Example C45_example : exists sg so a g',
  tooth_solved ex_g sg /\ tooth_solved ex_o so /\ - PI / 2 < a < PI / 2 /\
  ig_mesh_equation ex_g ex_o sg so (1 / 10) a = 0 /\
  ig_mesh_to ex_g ex_o sg so a RIGHT (1 / 10) 1 = Ok g' /\
  conjugate_external (k_trf (ig_core g')) (k_trf (ig_core ex_o)) 20 40 (unit_base ex_g) (unit_base ex_o)
    (- ig_angle_base ex_g sg) (- ig_angle_base ex_o so) (1 / 10 / 2 * (1 + 1)) (1 / 10 / 2 * (1 - 1))
    ((ig_r_base ex_g + ig_r_base ex_o) * tan a).
Proof.
  pose proof (ex_cyl 20 false ltac:(lia)) as H1. pose proof (ex_cyl 40 false ltac:(lia)) as H2.
  destruct (ex_solved 20 false ltac:(lia)) as (sg & S1). destruct (ex_solved 40 false ltac:(lia)) as (so & S2).
  fold ex_g in H1, S1. fold ex_o in H2, S2.
  assert (I1 : ig_in ex_g = ex_param 20 false) by (apply (ex_in 20); lia).
  assert (I2 : ig_in ex_o = ex_param 40 false) by (apply (ex_in 40); lia).
  assert (K1 : inside_teeth (k_tooth (ig_core ex_g)) = false) by (rewrite (k_tooth_eq _ _ H1), I1; reflexivity).
  assert (K2 : inside_teeth (k_tooth (ig_core ex_o)) = false) by (rewrite (k_tooth_eq _ _ H2), I2; reflexivity).
  destruct (C42_root_exists_unique ex_g ex_o sg so (1 / 10) K1 K2) as [(a & Ha & E) _].
  destruct (ex_mesh_ok ex_g ex_o sg so a (1 / 10) 1 20 40 H1 H2) as (g' & MT).
  exists sg, so, a, g'. repeat (split; [assumption || (destruct Ha; split; assumption)|]).
  apply (C45_external ex_g ex_o sg so a RIGHT); try assumption; try (rewrite ?I1, ?I2; reflexivity).
  - unfold ex_g, ex_o. rewrite (ex_r_base 20), (ex_r_base 40) by lia. pose proof cos_20deg.
    apply Rle_trans with 1; [|lra]. rewrite <- Rinv_1. apply Rinv_le_contravar; lra.
  - apply (ex_axis 40); lia.
Qed.

Example C42_example : exists sg so a g',
  tooth_solved ex_g sg /\ tooth_solved ex_o so /\ - PI / 2 < a < PI / 2 /\
  ig_mesh_equation ex_g ex_o sg so 0 a = 0 /\
  ig_mesh_to ex_g ex_o sg so a RIGHT 0 0 = Ok g' /\
  norm (vsub (g_center (k_trf (ig_core g'))) (g_center (k_trf (ig_core ex_o)))) = 60.
Proof.
  pose proof (ex_cyl 20 false ltac:(lia)) as H1. pose proof (ex_cyl 40 false ltac:(lia)) as H2.
  destruct (ex_solved 20 false ltac:(lia)) as (sg & S1). destruct (ex_solved 40 false ltac:(lia)) as (so & S2).
  fold ex_g in H1, S1. fold ex_o in H2, S2.
  assert (I1 : ig_in ex_g = ex_param 20 false) by (apply (ex_in 20); lia).
  assert (I2 : ig_in ex_o = ex_param 40 false) by (apply (ex_in 40); lia).
  assert (K1 : inside_teeth (k_tooth (ig_core ex_g)) = false) by (rewrite (k_tooth_eq _ _ H1), I1; reflexivity).
  assert (K2 : inside_teeth (k_tooth (ig_core ex_o)) = false) by (rewrite (k_tooth_eq _ _ H2), I2; reflexivity).
  destruct (C42_root_exists_unique ex_g ex_o sg so 0 K1 K2) as [(a & Ha & E) _].
  destruct (ex_mesh_ok ex_g ex_o sg so a 0 0 20 40 H1 H2) as (g' & MT).
  exists sg, so, a, g'. repeat (split; [assumption || (destruct Ha; split; assumption)|]).
  destruct (C42_standard_external ex_g ex_o 20 40 sg so a RIGHT 0 g') as [_ D]; try assumption;
    try (rewrite ?I1, ?I2; cbn; (reflexivity || lra || apply inv_20deg)).
  rewrite D, I1, I2. cbn. lra.
Qed.

(** A ring with 60 teeth over a pinion with 20. *)
Example C49_example : exists sg so a g',
  - PI / 2 < a < PI / 2 /\ ig_mesh_equation ex_ring ex_g sg so 0 a = 0 /\
  ig_mesh_to ex_ring ex_g sg so a RIGHT 0 0 = Ok g' /\
  dot (vsub (g_center (k_trf (ig_core g'))) (g_center (k_trf (ig_core ex_g)))) RIGHT < 0.
Proof.
  pose proof (ex_cyl 60 true ltac:(lia)) as H1. pose proof (ex_cyl 20 false ltac:(lia)) as H2.
  fold ex_ring in H1. fold ex_g in H2.
  assert (I1 : ig_in ex_ring = ex_param 60 true) by (apply (ex_in 60); lia).
  assert (K1 : orb (inside_teeth (k_tooth (ig_core ex_ring))) (inside_teeth (k_tooth (ig_core ex_g))) = true)
    by (rewrite (k_tooth_eq _ _ H1), I1; reflexivity).
  destruct (C42_ring_root_exists_unique ex_ring ex_g 0 0 0 K1) as [(a & Ha & E) _].
  destruct (ex_mesh_ok ex_ring ex_g 0 0 a 0 0 60 20 H1 H2) as (g' & MT).
  exists 0, 0, a, g'. repeat (split; [assumption || (destruct Ha; split; assumption)|]).
  apply (C49_sides ex_ring ex_g 60 20 0 0 a RIGHT 0 0 g' H1 H2); try assumption.
  - rewrite I1. reflexivity.
  - unfold ex_ring, ex_g. rewrite (ex_r_base 60), (ex_r_base 20) by lia. pose proof cos_20deg. lra.
Qed.

Example C45_ring_example : exists sg so a g',
  tooth_solved ex_g sg /\ tooth_solved ex_ring so /\ - PI / 2 < a < PI / 2 /\
  ig_mesh_equation ex_g ex_ring sg so (1 / 10) a = 0 /\
  ig_mesh_to ex_g ex_ring sg so a RIGHT (1 / 10) 0 = Ok g' /\
  conjugate_ring (k_trf (ig_core g')) (k_trf (ig_core ex_ring)) 20 60 (unit_base ex_g) (unit_base ex_ring)
    (- ig_angle_base ex_g sg) (- ig_angle_base ex_ring so) (1 / 10 / 2 * (1 + 0)) (1 / 10 / 2 * (1 - 0))
    ((ig_r_base ex_ring - ig_r_base ex_g) * tan (- a)).
Proof.
  pose proof (ex_cyl 20 false ltac:(lia)) as H1. pose proof (ex_cyl 60 true ltac:(lia)) as H2.
  destruct (ex_solved 20 false ltac:(lia)) as (sg & S1). destruct (ex_solved 60 true ltac:(lia)) as (so & S2).
  fold ex_g in H1, S1. fold ex_ring in H2, S2.
  assert (I1 : ig_in ex_g = ex_param 20 false) by (apply (ex_in 20); lia).
  assert (I2 : ig_in ex_ring = ex_param 60 true) by (apply (ex_in 60); lia).
  assert (K1 : orb (inside_teeth (k_tooth (ig_core ex_g))) (inside_teeth (k_tooth (ig_core ex_ring))) = true)
    by (rewrite (k_tooth_eq _ _ H2), I2; apply orb_true_r).
  destruct (C42_ring_root_exists_unique ex_g ex_ring sg so (1 / 10) K1) as [(a & Ha & E) _].
  destruct (ex_mesh_ok ex_g ex_ring sg so a (1 / 10) 0 20 60 H1 H2) as (g' & MT).
  exists sg, so, a, g'. repeat (split; [assumption || (destruct Ha; split; assumption)|]).
  pose proof cos_20deg as C20. pose proof PI_RGT_0 as PP.
  assert (IP : 0 < inv (PI / 9)) by (apply inv_pos; lra).
  pose proof (base_arc ex_g 20 sg H1 ltac:(rewrite I1; apply inv_20deg) S1) as B1.
  pose proof (base_arc ex_ring 60 so H2 ltac:(rewrite I2; apply inv_20deg) S2) as B2.
  rewrite I1 in B1. rewrite I2 in B2. cbn [ip_shift ip_alpha ip_backlash ip_crown ex_param] in B1, B2.
  assert (R1 : ig_r_base ex_g = 20 * cos (PI / 9)) by (apply (ex_r_base 20); lia).
  assert (R2 : ig_r_base ex_ring = 60 * cos (PI / 9)) by (apply (ex_r_base 60); lia).
  apply (C45_pinion_into_ring ex_g ex_ring sg so a RIGHT); try assumption; try (rewrite ?I1, ?I2; reflexivity).
  - rewrite R1, R2. apply Rle_trans with 1; [|lra]. rewrite <- Rinv_1. apply Rinv_le_contravar; lra.
  - lra.
  - lra.
  - rewrite R1, R2.
    replace (20 * cos (PI / 9) * - ig_angle_base ex_g sg) with (cos (PI / 9) * (- ig_angle_base ex_g sg * 20)) by ring.
    replace (60 * cos (PI / 9) * - ig_angle_base ex_ring so) with (cos (PI / 9) * (- ig_angle_base ex_ring so * 60)) by ring.
    apply Rmult_lt_compat_l; lra.
  - apply (ex_axis 60); lia.
Qed.
