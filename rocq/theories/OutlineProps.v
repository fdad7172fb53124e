(** C106: the outline of a gear does not cross or touch itself. *)
From Coq Require Import Nsatz Reals List ZArith Lra Lia Psatz.
From Verif Require Import Num Vec Transform TransformProps Params ParamsProps Coords CoordsProps Gen GenProps Interp Curve CurveLem
  CurveProps ArcLem ArcProps Chain ChainLem ChainProps GearLem GearMath MeshProps MeshDistProps Tooth Wrapper Info RefLines RefLinesProps
  Profile ProfileLem ProfileProps Build BuildProps Fillet FilletProps FlankProps ReduceProps Teeth CrownRackProps RackConjProps
  UndercutProps RisingLem Report ReportProps SpurProps RadiiProps.
Import ListNotations.
Open Scope R_scope.

(** ** Specification *)
(** The point lies at the distance [r] from the z axis in the direction [a]. *)
Definition polar (p : vec) (r a : R) : Prop := vx p = r * cos a /\ vy p = r * sin a.

(** A flank that leads away from the axis, never turns back, and stays between the middle of the tooth space and the
    middle of the tooth. *)
Record leading (t : node) (pitch : R) (rho phi : R -> R) : Prop := {
  le_pitch : 0 < pitch < PI;
  le_polar : forall s, 0 <= s <= 1 -> polar (n_point t s) (rho s) (phi s);
  le_root : 0 < rho 0;
  le_out : forall s u, 0 <= s -> s < u -> u <= 1 -> rho s < rho u /\ phi s <= phi u;
  le_gap : - (pitch / 2) < phi 0;
  le_land : phi 1 < 0 }.

(** ** Lemmas *)
Definition ang (p : vec) : R := arctan2 (vy p) (vx p).
Definition dst (p : vec) : R := sqrt (vx p * vx p + vy p * vy p).

Lemma polar_ang p r a : polar p r a -> 0 < r -> - PI < a <= PI -> ang p = a.
Proof. intros (X & Y) R A. unfold ang. rewrite X, Y. apply arctan2_polar; assumption. Qed.
Lemma polar_dst p r a : polar p r a -> 0 < r -> dst p = r.
Proof.
  intros (X & Y) R. unfold dst. rewrite X, Y.
  replace (r * cos a * (r * cos a) + r * sin a * (r * sin a)) with (r * r) by (pose proof (sc1 a) as S; nsatz).
  apply sqrt_square. lra.
Qed.
Lemma polar_flip p r a : polar p r a -> polar (flip p) r (- a).
Proof. intros (X & Y). unfold polar, flip. cbn [vx vy]. rewrite cos_neg, sin_neg, X, Y. split; ring. Qed.
Lemma polar_turn p r a b : polar p r a -> polar (turn b p) r (a + b).
Proof. intros (X & Y). unfold polar, turn. cbn [vx vy]. rewrite cos_plus, sin_plus, X, Y. split; ring. Qed.

Lemma polar_unique p r a r' a' : polar p r a -> polar p r' a' -> 0 < r -> 0 < r' -> 
  r = r' /\ exists k, a = a' + 2 * IZR k * PI.
Proof.
  intros P P' R R'. assert (E : r = r') by (rewrite <- (polar_dst _ _ _ P R); apply (polar_dst _ _ _ P' R')).
  split; [exact E|]. subst r'. destruct P as (X & Y), P' as (X' & Y'). rewrite X in X'. rewrite Y in Y'.
  apply Rmult_eq_reg_l in X'; [|lra]. apply Rmult_eq_reg_l in Y'; [|lra].
  assert (S : sin (a - a') = 0) by (rewrite sin_minus, X', Y'; ring).
  assert (C : cos (a - a') = 1) by (rewrite cos_minus, X', Y'; pose proof (sc1 a'); lra).
  destruct (sin_eq_0_0 _ S) as (k & K). exists (k / 2)%Z.
  destruct (Z.Even_or_Odd k) as [(m & M)|(m & M)].
  - assert (Q : (k / 2 = m)%Z) by (subst k; rewrite Z.mul_comm; apply Z.div_mul; lia). rewrite Q. subst k. rewrite mult_IZR in K. lra.
  - exfalso. subst k. rewrite plus_IZR, mult_IZR in K. rewrite K in C.
    replace ((2 * IZR m + 1) * PI) with (PI + 2 * IZR m * PI) in C by ring. rewrite cos_Zperiod, cos_PI in C. lra.
Qed.

(** The arc about the axis between two points less than half a turn apart. *)
Lemma arc_polar p q r a b : polar p r a -> polar q r b -> vz p = vz q -> 0 < r -> 0 < b - a < PI ->
  let c := from_2_point_center p q (axis_center p q) 0 true in
  0 < c_length c /\ c_eval c 0 = p /\ c_eval c 1 = q /\
  forall s, polar (c_eval c s) r (a + (b - a) * s).
Proof.
  intros (PX & PY) (QX & QY) Z R AB c.
  assert (S : 0 < sin (b - a)) by (apply sin_gt_0; lra).
  assert (D : vx p * vy q - vy p * vx q = r * r * sin (b - a)) by (rewrite sin_minus, PX, PY, QX, QY; ring).
  assert (RS : 0 < r * r * sin (b - a)) by (apply Rmult_lt_0_compat; [apply Rmult_lt_0_compat; lra|exact S]).
  destruct (axis_arc p q Z) as (_ & _ & L & E0 & E1 & _).
  { rewrite PX, PY, QX, QY. pose proof (sc1 a). pose proof (sc1 b). nsatz. }
  { rewrite D. lra. }
  fold c in L, E0, E1. split; [exact L|]. split; [exact E0|]. split; [exact E1|]. intros s.
  assert (CE : axis_center p q = V 0 0 (vz p)) by (unfold axis_center; apply vec_eq; cbn; lra).
  unfold c, from_2_point_center. rewrite CE.
  set (u := vsub p (V 0 0 (vz p))). set (v := vsub q (V 0 0 (vz p))).
  assert (EU : u = V (r * cos a) (r * sin a) 0) by (unfold u; destruct p; cbn in *; apply vec_eq; vec_simpl; lra).
  assert (EV : v = V (r * cos b) (r * sin b) 0) by (unfold v; destruct q; cbn in *; apply vec_eq; vec_simpl; lra).
  clearbody u v. subst u v.
  assert (EC : cross (V (r * cos a) (r * sin a) 0) (V (r * cos b) (r * sin b) 0) = V 0 0 (r * r * sin (b - a))).
  { rewrite sin_minus. apply vec_eq; vec_simpl; ring. }
  rewrite EC.
  assert (NU : norm (V (r * cos a) (r * sin a) 0) = r).
  { apply norm_eq; [lra|]. pose proof (sc1 a). vec_simpl. nsatz. }
  assert (NV : norm (V (r * cos b) (r * sin b) 0) = r).
  { apply norm_eq; [lra|]. pose proof (sc1 b). vec_simpl. nsatz. }
  assert (NX : normalize (V (r * cos a) (r * sin a) 0) = V (cos a) (sin a) 0).
  { unfold normalize. rewrite NU. apply vec_eq; vec_simpl; field; lra. }
  assert (NZ : normalize (V 0 0 (r * r * sin (b - a))) = V 0 0 1).
  { unfold normalize. assert (NN : norm (V 0 0 (r * r * sin (b - a))) = r * r * sin (b - a)) by (apply norm_eq; [lra|vec_simpl; ring]).
    rewrite NN. apply vec_eq; vec_simpl; field; lra. }
  assert (TH : angle_between (V (r * cos a) (r * sin a) 0) (V (r * cos b) (r * sin b) 0) = b - a).
  { unfold angle_between. rewrite EC.
    assert (NN : norm (V 0 0 (r * r * sin (b - a))) = r * r * sin (b - a)) by (apply norm_eq; [lra|vec_simpl; ring]).
    rewrite NN. replace (dot _ _) with (r * r * cos (b - a)) by (rewrite cos_minus; vec_simpl; ring).
    apply arctan2_polar; [apply Rmult_lt_0_compat; lra|lra]. }
  rewrite NX, NZ, NU, TH. rewrite arc_frame_eval.
  - unfold polar. replace ((b - a + 0 * PI * 2) * s) with ((b - a) * s) by ring. rewrite cos_plus, sin_plus.
    split; vec_simpl; ring.
  - apply frame_rotation2; vec_simpl; try ring. pose proof (sc1 a). lra.
Qed.

(** A list of curves along which the points come one after the other. *)
Definition climbing (lt : vec -> vec -> Prop) (cs : list curve) : Prop :=
  positive cs /\ forall x y, 0 <= x -> x < y -> y <= total cs -> lt (walk cs x) (walk cs y).

Lemma pos_nonneg cs : List.Forall (fun c => 0 < c_length c) cs -> List.Forall (fun c => 0 <= c_length c) cs.
Proof. apply Forall_impl. intros c H. lra. Qed.

Lemma climbing_app (lt : vec -> vec -> Prop) a b : (forall p q r, lt p q -> lt q r -> lt p r) ->
  climbing lt a -> climbing lt b -> walk a (total a) = walk b 0 -> climbing lt (a ++ b).
Proof.
  intros TR ((NA & PA) & HA) ((NB & PB) & HB) J. split.
  - split; [intros E; apply app_eq_nil in E; tauto|apply Forall_app; split; assumption].
  - rewrite total_app. intros x y X XY Y. pose proof (pos_nonneg _ PA) as PA'.
    pose proof (positive_total a (conj NA PA)) as TA.
    destruct (Rle_dec y (total a)) as [LY|LY].
    + rewrite !walk_app_l by (auto; right; lra). apply HA; lra.
    + rewrite (walk_app_r a b y) by (auto; right; lra). destruct (Rle_dec x (total a)) as [LX|LX].
      * rewrite walk_app_l by (auto; right; lra).
        assert (L2 : lt (walk b 0) (walk b (y - total a))) by (apply HB; lra).
        destruct (Req_dec x (total a)) as [->|NX]; [rewrite J; exact L2|].
        apply TR with (walk a (total a)); [apply HA; lra|rewrite J; exact L2].
      * rewrite (walk_app_r a b x) by (auto; right; lra). apply HB; lra.
Qed.

Lemma climbing_one (lt : vec -> vec -> Prop) c : 0 < c_length c ->
  (forall s u, 0 <= s -> s < u -> u <= 1 -> lt (c_eval c s) (c_eval c u)) -> climbing lt [c].
Proof.
  intros L H. split; [split; [discriminate|constructor; [exact L|constructor]]|].
  assert (TT : total [c] = c_length c) by (unfold total; cbn; ring). rewrite TT.
  intros x y X XY Y. cbn [walk]. rewrite !local_in by exact L.
  assert (B0 : 0 <= x / c_length c <= 1) by (apply div_01; [exact L|]; lra).
  assert (B1 : 0 <= y / c_length c <= 1) by (apply div_01; [exact L|]; lra).
  apply H; [lra|apply div_lt; assumption|lra].
Qed.

(** Where the points of a list of curves lie. *)
Definition inside (Q : vec -> Prop) (cs : list curve) : Prop := forall x, 0 <= x <= total cs -> Q (walk cs x).
Lemma inside_app Q a b : positive a -> positive b -> inside Q a -> inside Q b -> inside Q (a ++ b).
Proof.
  intros (NA & PA) (NB & PB) IA IB x X. rewrite total_app in X. pose proof (pos_nonneg _ PA) as PA'.
  destruct (Rle_dec x (total a)) as [L|L].
  - rewrite walk_app_l by (auto; right; lra). apply IA. lra.
  - rewrite walk_app_r by (auto; right; lra). apply IB. lra.
Qed.
Lemma inside_one (Q : vec -> Prop) c : 0 < c_length c -> (forall s, 0 <= s <= 1 -> Q (c_eval c s)) -> inside Q [c].
Proof.
  intros L H x X. cbn [walk]. rewrite local_in by exact L. apply H. apply div_01; [exact L|].
  assert (TT : total [c] = c_length c) by (unfold total; cbn; ring). lra.
Qed.

(** The order of the points along the outline of one tooth with the tip radius [ra]: by angle, and at the same angle
    outwards on the first flank and inwards on the second. *)
Definition rank (ra : R) (p : vec) : R := if Rle_dec (ang p) 0 then ang p + dst p else ang p + 2 * ra - dst p.
Definition before (ra : R) (p q : vec) : Prop := ang p <= ang q /\ rank ra p < rank ra q.
Lemma before_trans ra p q r : before ra p q -> before ra q r -> before ra p r.
Proof. unfold before. intros (A & B) (C & D). split; lra. Qed.

Section Outline.
  Variables (t : node) (pitch : R) (p : profile) (rho phi : R -> R).
  Hypothesis F : flank_ok t.
  Hypothesis FR : List.Forall fresh (leaves t).
  Hypothesis NO : not_opposite t pitch.
  Hypothesis AS : assembled t pitch p.
  Hypothesis LE : leading t pitch rho phi.
  Hypothesis GR : / 10000000000 < root_gap t pitch.
  Hypothesis GT : / 10000000000 < tip_gap t.

  Let A := - pitch - phi 0.

  Lemma le_sides s : 0 <= s <= 1 -> rho 0 <= rho s <= rho 1 /\ phi 0 <= phi s <= phi 1.
  Proof.
    intros S. destruct (Req_dec s 0) as [->|N0].
    - pose proof (le_out _ _ _ _ LE 0 1 ltac:(lra) ltac:(lra) ltac:(lra)). lra.
    - pose proof (le_out _ _ _ _ LE 0 s ltac:(lra) ltac:(lra) ltac:(lra)).
      destruct (Req_dec s 1) as [->|N1]; [lra|]. pose proof (le_out _ _ _ _ LE s 1 ltac:(lra) ltac:(lra) ltac:(lra)). lra.
  Qed.

  (** What is known of each point of the outline of one tooth. *)
  Definition sector (q : vec) : Prop := exists r a, polar q r a /\ rho 0 <= r <= rho 1 /\ A <= a <= - phi 0 /\ (a = A -> r = rho 0).

  Lemma sector_ranges : - PI < A /\ A < phi 0 /\ phi 0 <= phi 1 /\ phi 1 < 0 /\ - phi 0 < PI / 2 /\ rho 0 < rho 1 /\ 0 < rho 0 /\ phi 0 - A < PI.
  Proof.
    destruct LE as [P _ R O G L]. pose proof (O 0 1 ltac:(lra) ltac:(lra) ltac:(lra)). unfold A. pose proof PI_RGT_0. repeat split; lra.
  Qed.

  Lemma sector_known q : sector q -> rho 0 <= dst q <= rho 1 /\ A <= ang q <= - phi 0 /\ (ang q = A -> dst q = rho 0) /\ polar q (dst q) (ang q).
  Proof.
    intros (r & a & P & R & AA & C). destruct sector_ranges as (? & ? & ? & ? & ? & ? & ? & ?).
    assert (R0 : 0 < r) by lra. pose proof PI_RGT_0.
    rewrite (polar_ang q r a P R0) by lra. rewrite (polar_dst q r a P R0). repeat split; try lra; try exact C; apply P.
  Qed.

  Lemma root_piece : let c := pr_rd p in arc_if c = [c] /\ climbing (before (rho 1)) [c] /\ inside sector [c] /\
    walk [c] (total [c]) = n_point t 0 /\ walk [c] 0 = turn (- pitch) (flip (n_point t 0)).
  Proof.
    intros c. destruct sector_ranges as (SA & SB & SC & SD & SE & SF & SG & SH). pose proof PI_RGT_0.
    destruct (rd_facts t pitch p NO AS) as (_ & _ & _ & _ & _ & _ & G). destruct (G GR) as (EA & E0 & E1). fold c in EA, E0, E1.
    destruct (as_rd t pitch p AS) as (r & y & EC). rewrite (closing_active _ _ _ _ _ GR) in EC. fold c in EC.
    destruct (arc_polar (turn (- pitch) (flip (n_point t 0))) (n_point t 0) (rho 0) A (phi 0)) as (L & _ & _ & PP).
    - unfold A. replace (- pitch - phi 0) with (- phi 0 + - pitch) by ring. apply polar_turn, polar_flip, (le_polar _ _ _ _ LE). lra.
    - apply (le_polar _ _ _ _ LE). lra.
    - reflexivity.
    - exact SG.
    - lra.
    - rewrite <- EC in L, PP.
      assert (MO : forall s u, 0 <= s -> s < u -> u <= 1 ->
        A <= A + (phi 0 - A) * s /\ A + (phi 0 - A) * s < A + (phi 0 - A) * u /\ A + (phi 0 - A) * u <= phi 0).
      { intros s u S U V. assert (0 <= (phi 0 - A) * s) by (apply Rmult_le_pos; lra).
        assert ((phi 0 - A) * s < (phi 0 - A) * u) by (apply Rmult_lt_compat_l; lra).
        assert ((phi 0 - A) * u <= (phi 0 - A) * 1) by (apply Rmult_le_compat_l; lra). lra. }
      split; [exact EA|]. split; [|split; [|split]].
      + apply climbing_one; [exact L|]. intros s u S U V. destruct (MO s u S U V) as (M1 & M2 & M3). unfold before, rank.
        rewrite !(polar_ang _ _ _ (PP _) SG), !(polar_dst _ _ _ (PP _) SG) by lra. split; [lra|].
        destruct (Rle_dec _ 0); destruct (Rle_dec _ 0); lra.
      + apply inside_one; [exact L|]. intros s S. exists (rho 0), (A + (phi 0 - A) * s). split; [apply PP|].
        assert (0 <= (phi 0 - A) * s) by (apply Rmult_le_pos; lra).
        assert ((phi 0 - A) * s <= (phi 0 - A) * 1) by (apply Rmult_le_compat_l; lra).
        repeat split; lra.
      + rewrite (walk_end' [c] c); [exact E1|]. split; [discriminate|]. constructor; [exact L|constructor].
      + rewrite walk_start by exact L. exact E0.
  Qed.

  Lemma tip_piece : let c := pr_ra p in arc_if c = [c] /\ climbing (before (rho 1)) [c] /\ inside sector [c] /\
    walk [c] (total [c]) = flip (n_point t 1) /\ walk [c] 0 = n_point t 1.
  Proof.
    intros c. destruct sector_ranges as (SA & SB & SC & SD & SE & SF & SG & SH). pose proof PI_RGT_0.
    destruct (ra_facts t pitch p NO AS) as (_ & _ & _ & _ & _ & _ & G). destruct (G GT) as (EA & E0 & E1). fold c in EA, E0, E1.
    destruct (as_ra t pitch p AS) as (r & y & EC). rewrite (closing_active _ _ _ _ _ GT) in EC. fold c in EC.
    assert (RP : 0 < rho 1) by lra.
    destruct (arc_polar (n_point t 1) (flip (n_point t 1)) (rho 1) (phi 1) (- phi 1)) as (L & _ & _ & PP).
    - apply (le_polar _ _ _ _ LE). lra.
    - apply polar_flip, (le_polar _ _ _ _ LE). lra.
    - reflexivity.
    - exact RP.
    - pose proof (le_gap _ _ _ _ LE). pose proof (le_pitch _ _ _ _ LE). lra.
    - rewrite <- EC in L, PP.
      assert (MO : forall s u, 0 <= s -> s < u -> u <= 1 ->
        phi 1 <= phi 1 + (- phi 1 - phi 1) * s /\ phi 1 + (- phi 1 - phi 1) * s < phi 1 + (- phi 1 - phi 1) * u /\ phi 1 + (- phi 1 - phi 1) * u <= - phi 1).
      { intros s u S U V. assert (0 <= (- phi 1 - phi 1) * s) by (apply Rmult_le_pos; lra).
        assert ((- phi 1 - phi 1) * s < (- phi 1 - phi 1) * u) by (apply Rmult_lt_compat_l; lra).
        assert ((- phi 1 - phi 1) * u <= (- phi 1 - phi 1) * 1) by (apply Rmult_le_compat_l; lra). lra. }
      split; [exact EA|]. split; [|split; [|split]].
      + apply climbing_one; [exact L|]. intros s u S U V. destruct (MO s u S U V) as (M1 & M2 & M3). unfold before, rank.
        rewrite !(polar_ang _ _ _ (PP _) RP), !(polar_dst _ _ _ (PP _) RP) by lra. split; [lra|].
        destruct (Rle_dec _ 0); destruct (Rle_dec _ 0); lra.
      + apply inside_one; [exact L|]. intros s S. exists (rho 1), (phi 1 + (- phi 1 - phi 1) * s). split; [apply PP|].
        assert (0 <= (- phi 1 - phi 1) * s) by (apply Rmult_le_pos; lra).
        assert ((- phi 1 - phi 1) * s <= (- phi 1 - phi 1) * 1) by (apply Rmult_le_compat_l; lra).
        repeat split; lra.
      + rewrite (walk_end' [c] c); [exact E1|]. split; [discriminate|]. constructor; [exact L|constructor].
      + rewrite walk_start by exact L. exact E0.
  Qed.

  Lemma flank_piece : climbing (before (rho 1)) (leaves t) /\ inside sector (leaves t) /\
    walk (leaves t) (total (leaves t)) = n_point t 1 /\ walk (leaves t) 0 = n_point t 0.
  Proof.
    destruct sector_ranges as (SA & SB & SC & SD & SE & SF & SG & SH). pose proof PI_RGT_0.
    assert (PO : positive (leaves t)) by (split; [apply active_leaves, F|apply (fo_pos t F)]).
    pose proof (positive_total _ PO) as TP.
    assert (W : forall x, walk (leaves t) x = n_point t (x / total (leaves t))).
    { intros x. rewrite (leaves_walk t (fo_act t F) (fo_pos t F)). f_equal. field. lra. }
    split; [|split; [|split]].
    - split; [exact PO|]. intros x y X XY Y. rewrite !W.
      pose proof (div_01 x _ TP ltac:(lra)) as B0. pose proof (div_01 y _ TP ltac:(lra)) as B1. pose proof (div_lt x y _ TP XY) as B2.
      set (s := x / _) in *. set (u := y / _) in *.
      pose proof (le_sides s B0). pose proof (le_sides u B1). pose proof (le_out _ _ _ _ LE s u ltac:(lra) B2 ltac:(lra)).
      pose proof (le_polar _ _ _ _ LE s B0) as Ps. pose proof (le_polar _ _ _ _ LE u B1) as Pu. unfold before, rank.
      rewrite (polar_ang _ _ _ Ps), (polar_ang _ _ _ Pu), (polar_dst _ _ _ Ps), (polar_dst _ _ _ Pu) by lra. split; [lra|].
      destruct (Rle_dec _ 0); destruct (Rle_dec _ 0); lra.
    - intros x X. rewrite W. pose proof (div_01 x _ TP ltac:(lra)) as B0. set (s := x / _) in *.
      pose proof (le_sides s B0). exists (rho s), (phi s). split; [apply (le_polar _ _ _ _ LE s B0)|]. repeat split; lra.
    - rewrite W. f_equal. field. lra.
    - rewrite W. f_equal. field. lra.
  Qed.

  Lemma mirror_piece : let c := mirror_curve t in climbing (before (rho 1)) [c] /\ inside sector [c] /\
    walk [c] (total [c]) = flip (n_point t 0) /\ walk [c] 0 = flip (n_point t 1).
  Proof.
    intros c. destruct sector_ranges as (SA & SB & SC & SD & SE & SF & SG & SH). pose proof PI_RGT_0.
    destruct (mirror_curve_facts t F) as (FM & AM & L & I & E0 & E1). fold c in FM, AM, L, I, E0, E1.
    assert (EV : forall s, c_eval c s = flip (n_point t (s2t c s))).
    { intros s. unfold c_eval, c_fun. unfold c at 1, mirror_curve. cbn [new_curve update_lengths c_shape]. rewrite shape_fun_gen. apply flip_mirror. }
    assert (T0 : c_t0 c = 1) by reflexivity. assert (T1 : c_t1 c = 0) by reflexivity.
    assert (ND : (2 <= c_ndiv c)%nat) by apply NDIV_2.
    destruct (C28_ends c FM ND I) as (S0 & S1). rewrite T0 in S0. rewrite T1 in S1.
    pose proof (C28_strictly_monotone_reversed c FM ND I ltac:(lra)) as MO.
    assert (BD : forall s, 0 <= s <= 1 -> 0 <= s2t c s <= 1).
    { intros s S. split.
      - destruct (Req_dec s 1) as [->|N]; [lra|]. rewrite <- S1. left. apply MO; lra.
      - destruct (Req_dec s 0) as [->|N]; [lra|]. rewrite <- S0. left. apply MO; lra. }
    assert (PL : forall s, 0 <= s <= 1 -> polar (c_eval c s) (rho (s2t c s)) (- phi (s2t c s))).
    { intros s S. rewrite EV. apply polar_flip, (le_polar _ _ _ _ LE), BD, S. }
    clearbody c. split; [|split; [|split]].
    - apply climbing_one; [exact L|]. intros s u S U V.
      pose proof (PL s ltac:(lra)) as Ps. pose proof (PL u ltac:(lra)) as Pu.
      pose proof (MO s u S U V) as M. pose proof (BD s ltac:(lra)) as Bs. pose proof (BD u ltac:(lra)) as Bu.
      set (s' := s2t c s) in *. set (u' := s2t c u) in *.
      pose proof (le_sides s' Bs). pose proof (le_sides u' Bu). pose proof (le_out _ _ _ _ LE u' s' ltac:(lra) M ltac:(lra)).
      unfold before, rank.
      rewrite (polar_ang _ _ _ Ps), (polar_ang _ _ _ Pu), (polar_dst _ _ _ Ps), (polar_dst _ _ _ Pu) by lra. split; [lra|].
      destruct (Rle_dec _ 0); destruct (Rle_dec _ 0); lra.
    - apply inside_one; [exact L|]. intros s S. exists (rho (s2t c s)), (- phi (s2t c s)). split; [apply PL, S|].
      pose proof (le_sides _ (BD s S)). repeat split; lra.
    - rewrite (walk_end' [c] c); [exact E1|]. split; [discriminate|]. constructor; [exact L|constructor].
    - rewrite walk_start by exact L. exact E0.
  Qed.

  Lemma tooth_outline : (forall s, 0 <= s <= 1 -> sector (n_point (pr_chain p) s)) /\
    (forall s u, 0 <= s -> s < u -> u <= 1 -> before (rho 1) (n_point (pr_chain p) s) (n_point (pr_chain p) u)) /\
    n_point (pr_chain p) 1 = flip (n_point t 0).
  Proof.
    destruct root_piece as (R1 & R2 & R3 & R4 & R5). destruct tip_piece as (T1 & T2 & T3 & T4 & T5).
    destruct flank_piece as (F2 & F3 & F4 & F5). destruct mirror_piece as (M2 & M3 & M4 & M5).
    destruct (chain_pieces t pitch p F FR NO AS) as (EC & EL). unfold pieces in EL. rewrite R1, T1 in EL.
    set (cs := [pr_rd p] ++ leaves t ++ [pr_ra p] ++ [mirror_curve t]) in *.
    assert (C1 : climbing (before (rho 1)) ([pr_ra p] ++ [mirror_curve t])).
    { apply climbing_app; [apply before_trans|exact T2|exact M2|congruence]. }
    assert (HD : forall a b, positive a -> walk (a ++ b) 0 = walk a 0).
    { intros a b (NA & PA). apply walk_app_l; [apply pos_nonneg, PA|exact NA|right]. pose proof (positive_total a (conj NA PA)). lra. }
    assert (C2 : climbing (before (rho 1)) (leaves t ++ [pr_ra p] ++ [mirror_curve t])).
    { apply climbing_app; [apply before_trans|exact F2|exact C1|]. rewrite HD by apply (proj1 T2). congruence. }
    assert (C3 : climbing (before (rho 1)) cs).
    { apply climbing_app; [apply before_trans|exact R2|exact C2|]. rewrite HD by apply (proj1 F2). congruence. }
    assert (I3 : inside sector cs).
    { apply inside_app; [apply (proj1 R2)|apply (proj1 C2)|exact R3|]. apply inside_app; [apply (proj1 F2)|apply (proj1 C1)|exact F3|].
      apply inside_app; [apply (proj1 T2)|apply (proj1 M2)|exact T3|exact M3]. }
    destruct C3 as (PO & MO). pose proof (positive_total _ PO) as TP.
    assert (LV : leaves (pr_chain p) = cs) by (rewrite EC; exact EL).
    assert (AC : n_active (pr_chain p) = true) by (apply active_leaves; rewrite LV; apply PO).
    assert (W : forall s, n_point (pr_chain p) s = walk cs (s * total cs)).
    { intros s. rewrite <- LV. apply leaves_walk; [exact AC|]. rewrite LV. apply PO. }
    assert (B : forall s, 0 <= s <= 1 -> 0 <= s * total cs <= total cs).
    { intros s S. split; [apply Rmult_le_pos; lra|]. rewrite <- (Rmult_1_l (total cs)) at 2. apply Rmult_le_compat_r; lra. }
    split; [|split].
    - intros s S. rewrite W. apply I3, B, S.
    - intros s u S U V. rewrite !W. apply MO; [apply B; lra|apply Rmult_lt_compat_r; assumption|apply B; lra].
    - destruct (profile_ends t pitch p F FR NO AS) as (E1 & _). unfold n_point at 1. rewrite E1. reflexivity.
  Qed.

  (** Points of the outline of one tooth other than its end. *)
  Lemma tooth_open s : 0 <= s < 1 -> let q := n_point (pr_chain p) s in ang q = - phi 0 -> rho 0 < dst q.
  Proof.
    intros S q E. destruct tooth_outline as (SE & MO & EN). destruct (MO s 1 ltac:(lra) ltac:(lra) ltac:(lra)) as (_ & B).
    fold q in B. destruct sector_ranges as (SA & SB & SC & SD & SEE & SF & SG & SH). pose proof PI_RGT_0.
    pose proof (polar_flip _ _ _ (le_polar _ _ _ _ LE 0 ltac:(lra))) as P.
    rewrite EN in B. unfold rank in B. rewrite (polar_ang _ _ _ P), (polar_dst _ _ _ P), E in B by lra.
    destruct (Rle_dec _ 0); lra.
  Qed.

  (** The outline of the whole gear in polar coordinates. *)
  Definition turn_no (n x : R) : R := IZR (floorZ (x * n)).
  Lemma outline_polar n x : let k := turn_no n x in let q := n_point (pr_chain p) (x * n - k) in
    0 <= x * n - k < 1 /\ sector q /\ polar (boundary_fun p pitch n x) (dst q) (ang q + k * pitch).
  Proof.
    intros k q. pose proof (floorZ_bound (x * n)) as FS. fold (turn_no n x) in FS. fold k in FS.
    assert (B : 0 <= x * n - k < 1) by lra. split; [exact B|]. destruct tooth_outline as (SE & _).
    assert (S : sector q) by (apply SE; lra). split; [exact S|].
    unfold boundary_fun. fold (turn_no n x). fold k. fold q. rewrite <- turn_rotz. apply polar_turn. apply (sector_known q S).
  Qed.

  Lemma small_int m : - 2 < IZR m < 2 -> (m = -1 \/ m = 0 \/ m = 1)%Z.
  Proof. intros (U & V). apply lt_IZR in U. apply lt_IZR in V. lia. Qed.

  (** Two places on the outline at the same point of the plane are the same place. *)
  Lemma outline_injective N x y : (0 < N)%Z -> pitch = 2 * PI / IZR N -> 0 <= x < 1 -> 0 <= y < 1 ->
    boundary_fun p pitch (IZR N) x = boundary_fun p pitch (IZR N) y -> x = y.
  Proof.
    intros HN EP X Y E. apply IZR_lt in HN. destruct sector_ranges as (SA & SB & SC & SD & SEE & SF & SG & SH). pose proof PI_RGT_0.
    destruct (outline_polar (IZR N) x) as (Bx & Sx & Px). destruct (outline_polar (IZR N) y) as (By & Sy & Py).
    rewrite E in Px. unfold turn_no in *. set (k := floorZ (x * IZR N)) in *. set (l := floorZ (y * IZR N)) in *.
    set (s := x * IZR N - IZR k) in *. set (u := y * IZR N - IZR l) in *.
    pose proof (tooth_open s Bx) as Ox. pose proof (tooth_open u By) as Oy. cbv zeta in Ox, Oy.
    destruct tooth_outline as (_ & MO & _).
    set (q := n_point (pr_chain p) s) in *. set (q' := n_point (pr_chain p) u) in *.
    destruct (sector_known q Sx) as (D1 & A1 & Z1 & _). destruct (sector_known q' Sy) as (D2 & A2 & Z2 & _).
    destruct (polar_unique _ _ _ _ _ Px Py ltac:(lra) ltac:(lra)) as (ED & j & EA).
    assert (PN : IZR N * pitch = 2 * PI) by (rewrite EP; field; lra).
    assert (PP : 0 < pitch) by apply (le_pitch _ _ _ _ LE).
    assert (M : ang q - ang q' = IZR (l - k + j * N) * pitch).
    { rewrite plus_IZR, minus_IZR, mult_IZR. replace (2 * IZR j * PI) with (IZR j * (IZR N * pitch)) in EA by (rewrite PN; ring). lra. }
    assert (KL : 0 <= x * IZR N < IZR N /\ 0 <= y * IZR N < IZR N).
    { split; (split; [apply Rmult_le_pos; lra|]; rewrite <- (Rmult_1_l (IZR N)) at 2; apply Rmult_lt_compat_r; lra). }
    assert (KI : (-1 < k < N)%Z) by (split; apply lt_IZR; unfold s, u in *; lra).
    assert (LI : (-1 < l < N)%Z) by (split; apply lt_IZR; unfold s, u in *; lra).
    set (m := (l - k + j * N)%Z) in *.
    assert (WA : - phi 0 - A = pitch) by (unfold A; ring).
    assert (MB : (m = -1 \/ m = 0 \/ m = 1)%Z).
    { apply small_int. split.
      - apply Rmult_lt_reg_r with pitch; [exact PP|]. lra.
      - apply Rmult_lt_reg_r with pitch; [exact PP|]. lra. }
    destruct MB as [MB|[MB|MB]]; rewrite MB in M.
    - exfalso. assert (ang q = A) by lra. assert (ang q' = - phi 0) by lra. pose proof (Z1 ltac:(assumption)). pose proof (Oy ltac:(assumption)). lra.
    - assert (EQ : ang q = ang q') by lra. assert (RK : rank (rho 1) q = rank (rho 1) q') by (unfold rank; rewrite EQ, ED; reflexivity).
      assert (SU : s = u).
      { destruct (Rtotal_order s u) as [L|[L|L]]; [|exact L|]; exfalso.
        - destruct (MO s u ltac:(lra) L ltac:(lra)) as (_ & B). fold q q' in B. lra.
        - destruct (MO u s ltac:(lra) L ltac:(lra)) as (_ & B). fold q q' in B. lra. }
      assert (J0 : (j = 0)%Z). { unfold m in MB. assert (N > 0)%Z by (apply lt_IZR in HN; lia). nia. }
      assert (KK : k = l) by (unfold m in MB; subst j; lia).
      apply Rmult_eq_reg_r with (IZR N); [|lra]. unfold s, u in SU. rewrite KK in SU. lra.
    - exfalso. assert (ang q = - phi 0) by lra. assert (ang q' = A) by lra. pose proof (Z2 ltac:(assumption)). pose proof (Ox ltac:(assumption)). lra.
  Qed.

  (** Along the outline the angle never goes back and grows by one full turn. *)
  Lemma outline_turns N : (0 < N)%Z -> pitch = 2 * PI / IZR N -> exists r a : R -> R, forall x,
    polar (boundary_fun p pitch (IZR N) x) (r x) (a x) /\ rho 0 <= r x <= rho 1 /\ (forall y, x <= y -> a x <= a y) /\
    a (x + 1) = a x + 2 * PI.
  Proof.
    intros HN EP. apply IZR_lt in HN.
    set (q := fun x => n_point (pr_chain p) (x * IZR N - turn_no (IZR N) x)).
    assert (PN : IZR N * pitch = 2 * PI) by (rewrite EP; field; lra).
    assert (PP : 0 < pitch) by apply (le_pitch _ _ _ _ LE).
    assert (WA : - phi 0 - A = pitch) by (unfold A; ring).
    exists (fun x => dst (q x)), (fun x => ang (q x) + turn_no (IZR N) x * pitch). intros x.
    destruct (outline_polar (IZR N) x) as (Bx & Sx & Px). cbv beta. split; [exact Px|].
    destruct (sector_known _ Sx) as (D1 & A1 & Z1 & _). split; [exact D1|]. split.
    - intros y L. destruct (outline_polar (IZR N) y) as (By & Sy & Py). destruct (sector_known _ Sy) as (D2 & A2 & Z2 & _).
      fold (q x) in A1. fold (q y) in A2. destruct tooth_outline as (_ & MO & _).
      assert (LN : x * IZR N <= y * IZR N) by (apply Rmult_le_compat_r; lra).
      pose proof (floorZ_mono _ _ LN) as FM. unfold turn_no in *. unfold q in *.
      set (k := floorZ (x * IZR N)) in *. set (l := floorZ (y * IZR N)) in *.
      destruct (Z.eq_dec k l) as [->|NE].
      + destruct (Req_dec (x * IZR N) (y * IZR N)) as [->|NX]; [lra|].
        destruct (MO (x * IZR N - IZR l) (y * IZR N - IZR l)) as (B & _); lra.
      + assert (KL : IZR k + 1 <= IZR l) by (rewrite <- plus_IZR; apply IZR_le; lia).
        assert ((IZR k + 1) * pitch <= IZR l * pitch) by (apply Rmult_le_compat_r; lra). lra.
    - assert (TN : turn_no (IZR N) (x + 1) = turn_no (IZR N) x + IZR N).
      { unfold turn_no. replace ((x + 1) * IZR N) with (x * IZR N + IZR N) by ring. rewrite floorZ_add, plus_IZR. reflexivity. }
      unfold q. rewrite TN. replace ((x + 1) * IZR N - (turn_no (IZR N) x + IZR N)) with (x * IZR N - turn_no (IZR N) x) by ring. lra.
  Qed.
End Outline.

(** ** C106 *)
Lemma leading_sides t pitch rho phi : leading t pitch rho phi -> not_opposite t pitch.
Proof.
  intros [P PO R O G L]. pose proof (O 0 1 ltac:(lra) ltac:(lra) ltac:(lra)). pose proof PI_RGT_0.
  destruct (PO 0 ltac:(lra)) as (X0 & Y0). destruct (PO 1 ltac:(lra)) as (X1 & _). unfold not_opposite. rewrite X0, Y0, X1. split.
  - assert (0 < rho 1 * cos (phi 1)) by (apply Rmult_lt_0_compat; [lra|apply cos_gt_0; lra]). lra.
  - assert (0 < rho 0 * cos (phi 0 + pitch / 2)) by (apply Rmult_lt_0_compat; [lra|apply cos_gt_0; lra]).
    rewrite cos_plus in *. lra.
Qed.

Lemma trimmed_assembled sv tooth rc tipf rootf pitch t p :
  List.Forall fresh (leaves tooth) -> trim_flank sv tooth rc tipf rootf pitch = Ok t -> flank_ok t -> not_opposite t pitch ->
  trim_reference_profile sv tooth rc tipf rootf pitch = Ok p -> List.Forall fresh (leaves t) /\ assembled t pitch p.
Proof.
  intros FT TR F NO EP. pose proof (trim_leaves_fresh _ _ _ _ _ _ _ FT TR) as FR. split; [exact FR|].
  destruct (assemble_ok t rc pitch F FR NO) as (p' & EP' & AS). unfold trim_reference_profile in EP. rewrite TR in EP. cbn [bind] in EP.
  rewrite EP' in EP. apply Ok_inj in EP. subst p'. exact AS.
Qed.

(** No two places on the outline of the gear coincide. *)
Theorem C106_simple sv tooth rc tipf rootf N t p rho phi : (0 < N)%Z ->
  let pitch := 2 * PI / IZR N in
  List.Forall fresh (leaves tooth) -> trim_flank sv tooth rc tipf rootf pitch = Ok t -> flank_ok t ->
  leading t pitch rho phi -> / 10000000000 < root_gap t pitch -> / 10000000000 < tip_gap t ->
  trim_reference_profile sv tooth rc tipf rootf pitch = Ok p ->
  forall x y, 0 <= x < 1 -> 0 <= y < 1 -> boundary_fun p pitch (IZR N) x = boundary_fun p pitch (IZR N) y -> x = y.
Proof.
  intros HN pitch FT TR F LE GR GT EP. pose proof (leading_sides _ _ _ _ LE) as NO.
  destruct (trimmed_assembled _ _ _ _ _ _ _ _ FT TR F NO EP) as (FR & AS). intros x y.
  apply (outline_injective t pitch p rho phi F FR NO AS LE GR GT N); [exact HN|reflexivity].
Qed.

(** The outline runs once round the axis, counterclockwise, and stays between the two circles through the ends of the
    flank. *)
Theorem C106_once_round sv tooth rc tipf rootf N t p rho phi : (0 < N)%Z ->
  let pitch := 2 * PI / IZR N in
  List.Forall fresh (leaves tooth) -> trim_flank sv tooth rc tipf rootf pitch = Ok t -> flank_ok t ->
  leading t pitch rho phi -> / 10000000000 < root_gap t pitch -> / 10000000000 < tip_gap t ->
  trim_reference_profile sv tooth rc tipf rootf pitch = Ok p ->
  exists r a : R -> R, forall x, polar (boundary_fun p pitch (IZR N) x) (r x) (a x) /\ rho 0 <= r x <= rho 1 /\
    (forall y, x <= y -> a x <= a y) /\ a (x + 1) = a x + 2 * PI.
Proof.
  intros HN pitch FT TR F LE GR GT EP. pose proof (leading_sides _ _ _ _ LE) as NO.
  destruct (trimmed_assembled _ _ _ _ _ _ _ _ FT TR F NO EP) as (FR & AS).
  apply (outline_turns t pitch p rho phi F FR NO AS LE GR GT N); [exact HN|reflexivity].
Qed.

(** The same for the curve that [generate_boundary] returns. *)
Lemma boundary_object p N : (0 < N)%Z -> let pitch := 2 * PI / IZR N in
  (forall x y, 0 <= x < 1 -> 0 <= y < 1 -> boundary_fun p pitch (IZR N) x = boundary_fun p pitch (IZR N) y -> x = y) ->
  exists c, generate_boundary p (PyInt N) pitch (IZR N) = Ok c /\
    forall s u, 0 <= s < 1 -> 0 <= u < 1 -> c_eval c s = c_eval c u -> s = u.
Proof.
  intros HN pitch INJ. set (f := boundary_fun p pitch (IZR N)) in *. set (n := Z.to_nat (N * 20)).
  assert (N2 : (20 <= n)%nat) by (unfold n; lia).
  exists (new_curve (SGen f) true 0 1 n). split; [reflexivity|].
  assert (C : f 1 = f 0) by (unfold f, pitch; rewrite <- (C53_closed p N 0 HN), Rplus_0_l; reflexivity).
  assert (NI : 18 < INR (n - 1)).
  { apply Rlt_le_trans with (INR 19); [cbn; lra|apply le_INR; lia]. }
  assert (I : incr (c_ss (new_curve (SGen f) true 0 1 n))).
  { apply C28_distinct_samples_strict; [lia|]. intros i Hi E.
    destruct (step_frac 0 1 i (n - 1)) as (B0 & B1 & B2); try lia; try lra.
    set (x := 0 + (1 - 0) * INR i / INR (n - 1)) in *. set (y := 0 + (1 - 0) * INR (S i) / INR (n - 1)) in *.
    destruct (Req_dec y 1) as [Y|Y].
    - rewrite Y, C in E. apply INJ in E; try lra. unfold x, y in *. rewrite S_INR in Y.
      assert (K : (1 - 0) * INR i / INR (n - 1) = 0) by lra. assert (K2 : 1 / INR (n - 1) = 1).
      { transitivity (0 + (1 - 0) * (INR i + 1) / INR (n - 1) - (1 - 0) * INR i / INR (n - 1)); [field; lra|lra]. }
      assert (K3 : INR (n - 1) * (1 / INR (n - 1)) = 1) by (field; lra). rewrite K2 in K3. lra.
    - apply INJ in E; lra. }
  set (c := new_curve (SGen f) true 0 1 n) in *.
  assert (FC : fresh c) by apply new_fresh. assert (ND : (2 <= c_ndiv c)%nat) by (change (2 <= n)%nat; lia).
  destruct (C28_ends c FC ND I) as (S0 & S1). change (c_t0 c) with 0 in S0. change (c_t1 c) with 1 in S1.
  assert (MO : forall s u, 0 <= s -> s < u -> u <= 1 -> s2t c s < s2t c u).
  { apply C28_strictly_monotone; [exact FC|exact ND|exact I|]. change (0 < 1). lra. }
  assert (BD : forall s, 0 <= s < 1 -> 0 <= s2t c s < 1).
  { intros s S. split; [|assert (K : s2t c s < s2t c 1) by (apply MO; lra); lra].
    destruct (Req_dec s 0) as [->|NZ]; [lra|]. assert (K : s2t c 0 < s2t c s) by (apply MO; lra). lra. }
  assert (EV : forall s, c_eval c s = f (s2t c s)).
  { intros s. unfold c_eval, c_fun. change (c_shape c) with (SGen f). rewrite shape_fun_gen. reflexivity. }
  intros s u S U E. rewrite !EV in E. apply INJ in E; [|apply BD, S|apply BD, U].
  destruct (Rtotal_order s u) as [L|[L|L]]; [|exact L|]; exfalso.
  - pose proof (MO s u ltac:(lra) L ltac:(lra)). lra.
  - pose proof (MO u s ltac:(lra) L ltac:(lra)). lra.
Qed.
Theorem C106_boundary_curve sv tooth rc tipf rootf N t p rho phi : (0 < N)%Z ->
  let pitch := 2 * PI / IZR N in
  List.Forall fresh (leaves tooth) -> trim_flank sv tooth rc tipf rootf pitch = Ok t -> flank_ok t ->
  leading t pitch rho phi -> / 10000000000 < root_gap t pitch -> / 10000000000 < tip_gap t ->
  trim_reference_profile sv tooth rc tipf rootf pitch = Ok p ->
  exists c, generate_boundary p (PyInt N) pitch (IZR N) = Ok c /\
    forall s u, 0 <= s < 1 -> 0 <= u < 1 -> c_eval c s = c_eval c u -> s = u.
Proof.
  intros HN pitch FT TR F LE GR GT EP. apply boundary_object; [exact HN|].
  apply (C106_simple sv tooth rc tipf rootf N t p rho phi); assumption.
Qed.

(** The flank of four teeth from (9, -2) to (11, -1). *)
Lemma ex_leading : leading ex_flank (2 * PI / 4) (fun s => sqrt ((9 + 2 * s) * (9 + 2 * s) + (-2 + s) * (-2 + s)))
  (fun s => atan ((-2 + s) / (9 + 2 * s))).
Proof.
  pose proof PI_RGT_0. assert (A1 : atan (-1) = - (PI / 4)) by (replace (-1) with (- (1)) by ring; rewrite atan_opp, atan_1; reflexivity).
  assert (UPR : forall s u, 0 <= s -> s <= u -> u <= 1 -> (-2 + s) / (9 + 2 * s) <= (-2 + u) / (9 + 2 * u)).
  { intros s u S U V. apply Rmult_le_reg_r with ((9 + 2 * s) * (9 + 2 * u)); [apply Rmult_lt_0_compat; lra|].
    replace ((-2 + s) / (9 + 2 * s) * ((9 + 2 * s) * (9 + 2 * u))) with ((-2 + s) * (9 + 2 * u)) by (field; lra).
    replace ((-2 + u) / (9 + 2 * u) * ((9 + 2 * s) * (9 + 2 * u))) with ((-2 + u) * (9 + 2 * s)) by (field; lra). lra. }
  split.
  - lra.
  - intros s S. rewrite ex_flank_point. unfold polar. cbn [vx vy].
    destruct (arctan2_cos_sin (-2 + s) (9 + 2 * s)) as (C & D).
    assert (E : arctan2 (-2 + s) (9 + 2 * s) = atan ((-2 + s) / (9 + 2 * s))) by (unfold arctan2; destruct (Rlt_dec _ _); [reflexivity|lra]).
    rewrite E in C, D. split; lra.
  - apply sqrt_lt_R0. lra.
  - intros s u S U V. split.
    + apply sqrt_lt_1_alt. split; [pose proof (Rle_0_sqr (9 + 2 * s)); pose proof (Rle_0_sqr (-2 + s)); unfold Rsqr in *; lra|].
      assert (0 < (u - s) * (32 + 5 * (u + s))) by (apply Rmult_lt_0_compat; lra). lra.
    + destruct (UPR s u S ltac:(lra) V) as [L|E]; [left; apply atan_increasing, L|rewrite E; lra].
  - rewrite <- (Ropp_involutive (2 * PI / 4 / 2)). replace (- (2 * PI / 4 / 2)) with (atan (-1)) by lra. rewrite Ropp_involutive.
    apply atan_increasing. lra.
  - rewrite <- atan_0. apply atan_increasing. lra.
Qed.
Lemma ex_outline : exists p, trim_reference_profile ex_solver ex_flank ex_circles 0 0 (2 * PI / 4) = Ok p /\
  List.Forall fresh (leaves ex_flank) /\ trim_flank ex_solver ex_flank ex_circles 0 0 (2 * PI / 4) = Ok ex_flank /\
  / 10000000000 < root_gap ex_flank (2 * PI / 4).
Proof.
  replace (2 * PI / 4) with (PI / 2) by field.
  assert (FR : List.Forall fresh (leaves ex_flank)) by (constructor; [apply new_fresh|constructor]).
  destruct (C53_profile ex_solver ex_flank ex_circles 0 0 (PI / 2) ex_flank FR (ex_trim _) ex_flank_ok ex_not_opposite)
    as (p & a & b & EP & _). exists p. split; [exact EP|]. split; [exact FR|]. split; [apply ex_trim|apply ex_root_gap].
Qed.
Example C106_simple_example : exists p, trim_reference_profile ex_solver ex_flank ex_circles 0 0 (2 * PI / 4) = Ok p /\
  forall x y, 0 <= x < 1 -> 0 <= y < 1 -> boundary_fun p (2 * PI / 4) 4 x = boundary_fun p (2 * PI / 4) 4 y -> x = y.
Proof.
  destruct ex_outline as (p & EP & FR & TR & GR). exists p. split; [exact EP|].
  exact (C106_simple ex_solver ex_flank ex_circles 0 0 4 ex_flank p _ _ ltac:(lia) FR TR ex_flank_ok ex_leading GR ex_tip_gap EP).
Qed.
Example C106_once_round_example : exists p (r a : R -> R), trim_reference_profile ex_solver ex_flank ex_circles 0 0 (2 * PI / 4) = Ok p /\
  forall x, polar (boundary_fun p (2 * PI / 4) 4 x) (r x) (a x) /\ 9 <= r x <= 12 /\
    (forall y, x <= y -> a x <= a y) /\ a (x + 1) = a x + 2 * PI.
Proof.
  destruct ex_outline as (p & EP & FR & TR & GR).
  destruct (C106_once_round ex_solver ex_flank ex_circles 0 0 4 ex_flank p _ _ ltac:(lia) FR TR ex_flank_ok ex_leading GR ex_tip_gap EP) as (r & a & H).
  exists p, r, a. split; [exact EP|]. intros x. destruct (H x) as (H1 & H2 & H3). split; [exact H1|]. split; [|exact H3]. cbv beta in H2.
  assert (9 <= sqrt ((9 + 2 * 0) * (9 + 2 * 0) + (-2 + 0) * (-2 + 0))).
  { apply Rle_trans with (sqrt (9 * 9)); [rewrite sqrt_square; lra|apply sqrt_le_1_alt; lra]. }
  assert (sqrt ((9 + 2 * 1) * (9 + 2 * 1) + (-2 + 1) * (-2 + 1)) <= 12).
  { apply Rle_trans with (sqrt (12 * 12)); [apply sqrt_le_1_alt; lra|rewrite sqrt_square; lra]. }
  lra.
Qed.
Example C106_boundary_curve_example : exists p c, trim_reference_profile ex_solver ex_flank ex_circles 0 0 (2 * PI / 4) = Ok p /\
  generate_boundary p (PyInt 4) (2 * PI / 4) 4 = Ok c /\ forall s u, 0 <= s < 1 -> 0 <= u < 1 -> c_eval c s = c_eval c u -> s = u.
Proof.
  destruct ex_outline as (p & EP & FR & TR & GR).
  destruct (C106_boundary_curve ex_solver ex_flank ex_circles 0 0 4 ex_flank p _ _ ltac:(lia) FR TR ex_flank_ok ex_leading GR ex_tip_gap EP) as (c & H).
  exists p, c. split; [exact EP|exact H].
Qed.

(** *** Spur gears *)
Lemma chord_polar p q r a b : polar p r a -> polar q r b -> vz p = vz q -> 0 < r -> 0 < b - a < 2 * PI ->
  norm (vsub p q) = 2 * r * sin ((b - a) / 2).
Proof.
  intros (PX & PY) (QX & QY) Z R AB. set (h := (b - a) / 2).
  assert (S : 0 < sin h) by (apply sin_gt_0; unfold h; lra).
  apply norm_eq.
  - apply Rlt_le, Rmult_lt_0_compat; [lra|exact S].
  - assert (EB : b = a + (h + h)) by (unfold h; field). destruct p as [px py pz], q as [qx qy qz]. cbn [vx vy vz] in *.
    rewrite EB, cos_plus, cos_plus, sin_plus in QX. rewrite EB, sin_plus, cos_plus, sin_plus in QY. subst px py qx qy qz.
    pose proof (sc1 a) as S1. pose proof (sc1 h) as S2. vec_simpl. clearbody h. clear - S1 S2. nsatz.
Qed.

(** The widths, on a straight line, of the land at the tip and of the bottom of the tooth space. *)
Definition land_width (rp alpha pia ra : R) : R := 2 * ra * sin (- flank_angle rp alpha pia ra).
Definition space_width (rp alpha pia rd pitch : R) : R := 2 * rd * sin (pitch / 2 + flank_angle rp alpha pia rd).

Lemma spur_leading t rp alpha pia ha hd pitch : spur rp alpha pia ha hd pitch ->
  n_point t 0 = flank_point rp alpha pia (rp - hd) -> n_point t 1 = flank_point rp alpha pia (rp + ha) ->
  (forall s, 0 <= s <= 1 -> exists r, rp - hd <= r <= rp + ha /\ n_point t s = flank_point rp alpha pia r) ->
  (forall s u r r', 0 <= s -> s < u -> u <= 1 -> 0 < r -> 0 < r' ->
     n_point t s = flank_point rp alpha pia r -> n_point t u = flank_point rp alpha pia r' -> r < r') ->
  let rho := fun s => dst (n_point t s) in let phi := fun s => flank_angle rp alpha pia (rho s) in
  leading t pitch rho phi /\ rho 0 = rp - hd /\ rho 1 = rp + ha /\
  root_gap t pitch = space_width rp alpha pia (rp - hd) pitch /\ tip_gap t = land_width rp alpha pia (rp + ha).
Proof.
  intros [P A I PI0 RD H BA GAP LAND] P0 P1 PS UPS rho phi.
  assert (C : 0 < cos alpha) by (apply cos_gt_0; lra).
  assert (PF : forall r, polar (flank_point rp alpha pia r) r (flank_angle rp alpha pia r)) by (intros r; split; reflexivity).
  assert (DF : forall r, 0 < r -> dst (flank_point rp alpha pia r) = r) by (intros r R; apply (polar_dst _ _ _ (PF r) R)).
  assert (R0 : rho 0 = rp - hd) by (unfold rho; rewrite P0; apply DF; lra).
  assert (R1 : rho 1 = rp + ha) by (unfold rho; rewrite P1; apply DF; lra).
  assert (PT : forall s, 0 <= s <= 1 -> rp - hd <= rho s /\ n_point t s = flank_point rp alpha pia (rho s)).
  { intros s S. destruct (PS s S) as (r & B & E). assert (Er : rho s = r) by (unfold rho; rewrite E; apply DF; lra). rewrite Er. split; [lra|exact E]. }
  destruct (flank_angle_mono rp alpha pia (rp - hd) (rp + ha) P C RD ltac:(lra)) as (MO & _).
  split; [|split; [exact R0|split; [exact R1|]]].
  - split; try assumption.
    + intros s S. destruct (PT s S) as (_ & ->). apply PF.
    + rewrite R0. exact RD.
    + intros s u S U V. destruct (PT s ltac:(lra)) as (Bs & Es). destruct (PT u ltac:(lra)) as (Bu & Eu).
      assert (L : rho s < rho u) by (apply (UPS s u); try lra; assumption). split; [exact L|]. unfold phi.
      apply flank_angle_mono; lra.
    + unfold phi. rewrite R0. exact GAP.
    + unfold phi. rewrite R1. exact LAND.
  - pose proof PI_RGT_0. unfold root_gap, tip_gap, space_width, land_width. rewrite P0, P1. split.
    + set (a := flank_angle rp alpha pia (rp - hd)) in *.
      rewrite (chord_polar _ _ (rp - hd) (- a + - pitch) a); [f_equal; f_equal; field| | |reflexivity|exact RD|lra].
      * apply polar_turn, polar_flip, PF.
      * apply PF.
    + set (a := flank_angle rp alpha pia (rp + ha)) in *.
      rewrite (chord_polar _ _ (rp + ha) a (- a)); [f_equal; f_equal; field| | |reflexivity|lra|lra].
      * apply PF.
      * apply polar_flip, PF.
Qed.

(** A spur gear as the user makes it: teeth with a land and a space of more than 1e-10 module. *)
Theorem C106_gear sv fs ts g n z : plain_spur g n -> spur_at g n z -> searched sv ts g n z ->
  let ip := ig_in g in let rp := IZR n / 2 in let pia := ig_pia g z in
  let rd := rp - (ip_ded ip - ip_shift ip) in let ra := rp + (ip_add ip + ip_shift ip) in let pitch := 2 * PI / IZR n in
  / 10000000000 < space_width rp (ip_alpha ip) pia rd pitch -> / 10000000000 < land_width rp (ip_alpha ip) pia ra ->
  exists p c, ig_profile sv fs ts g z = Ok p /\ generate_boundary p (PyInt n) pitch (IZR n) = Ok c /\
    (forall s u, 0 <= s < 1 -> 0 <= u < 1 -> c_eval c s = c_eval c u -> s = u) /\
    exists r a : R -> R, forall x, polar (boundary_fun p pitch (IZR n) x) (r x) (a x) /\ rd <= r x <= ra /\
      (forall y, x <= y -> a x <= a y) /\ a (x + 1) = a x + 2 * PI.
Proof.
  intros H SP SE ip rp pia rd ra pitch WS WL.
  destruct (C105_gear sv fs ts g n z H SP SE) as (p & EP & _). destruct SE as (S & T & TF & RF).
  destruct (C105_flank sv ts _ _ _ _ _ _ _ _ SP S T TF RF) as (t & TR & FO & NO & FR & P0 & P1 & PS & UPS).
  destruct (spur_leading t _ _ _ _ _ _ SP P0 P1 PS UPS) as (LE & R0 & R1 & G0 & G1).
  pose proof (spur_core g n z H) as K. cbv zeta in K. destruct K as (E1 & E2 & E3 & E4 & E5 & E6 & E7 & E8 & SO & _).
  assert (HN : (0 < n)%Z) by apply (cy_n _ _ (ps_cyl _ _ H)).
  pose proof EP as EQ. unfold ig_profile in EQ. rewrite (spur_tooth ts g n z H) in EQ. cbn [bind] in EQ.
  rewrite E1, E3, E4, E5, E8, (ps_tip _ _ H), (ps_root _ _ H), (ps_trunc _ _ H) in EQ. unfold generate_reference_profile in EQ.
  set (tooth := plane_involute_tooth ts (IZR n / 2) (ip_alpha (ig_in g)) (ig_pia g z)) in *.
  set (rc := generate_reference_circles (IZR n / 2) (ip_add (ig_in g) + ip_shift (ig_in g)) (ip_ded (ig_in g) - ip_shift (ig_in g))
               (k_ho (ig_core g)) 0 (IZR n / 2)) in *.
  replace (reduced_circles fs tooth rc 0 0 (IZR n / 2)) with rc in EQ
    by (unfold reduced_circles; destruct (Rlt_dec 0 0); [lra|reflexivity]).
  replace (filleted_flank fs tooth rc 0 0 (2 * PI / IZR n)) with (Ok tooth) in EQ
    by (unfold filleted_flank; destruct (Rlt_dec 0 0); [lra|reflexivity]).
  cbn [bind] in EQ. destruct (trim_reference_profile sv tooth rc 0 0 (2 * PI / IZR n)) as [p0|] eqn:ET; [|discriminate].
  cbn [bind] in EQ. apply Ok_inj in EQ.
  assert (BF : forall x, boundary_fun p pitch (IZR n) x = boundary_fun p0 pitch (IZR n) x) by (subst p; reflexivity).
  assert (GR : / 10000000000 < root_gap t (2 * PI / IZR n)) by (rewrite G0; exact WS).
  assert (GT : / 10000000000 < tip_gap t) by (rewrite G1; exact WL).
  pose proof (C106_simple sv tooth rc 0 0 n t p0 _ _ HN FR TR FO LE GR GT ET) as INJ. cbv zeta in INJ. fold pitch in INJ.
  destruct (boundary_object p n HN) as (c & EC & CI).
  { intros x y X Y E. apply INJ; [exact X|exact Y|]. fold pitch in E. rewrite <- !BF. exact E. }
  exists p, c. split; [exact EP|]. split; [exact EC|]. split; [exact CI|].
  destruct (C106_once_round sv tooth rc 0 0 n t p0 _ _ HN FR TR FO LE GR GT ET) as (r & a & PR). cbv beta in PR.
  exists r, a. intros x. rewrite BF. destruct (PR x) as (Q1 & Q2 & Q3). cbv beta in R0, R1. rewrite R0, R1 in Q2. auto.
Qed.

(** The gear with eight teeth of module 2 and pressure angle 30 degrees. *)
Example C106_gear_example : exists sv fs ts, let g := ig_new (ex_param (2 * sqrt 6 - 4) 0) in
  exists p c, ig_profile sv fs ts g 0 = Ok p /\ generate_boundary p (PyInt 8) (2 * PI / 8) 8 = Ok c /\
    (forall s u, 0 <= s < 1 -> 0 <= u < 1 -> c_eval c s = c_eval c u -> s = u).
Proof.
  destruct ex_searched as (sv & ts & PL & EI & HO & ALL). pose proof PI_3. pose proof PI_4.
  set (g := ig_new (ex_param (2 * sqrt 6 - 4) 0)) in *. exists sv, (meets_at 1), ts. cbv zeta.
  destruct (ALL 0) as (SP & SE).
  destruct (ex_plain (2 * sqrt 6 - 4) 0) as (_ & PA & _). fold g in PA.
  assert (C : cos (PI / 6) = sqrt 3 / 2) by apply cos_PI6.
  assert (S3 : 17 / 10 < sqrt 3) by (apply sqrt_bound; lra). assert (S3' : sqrt 3 < 1733 / 1000) by (apply sqrt_bound_up; lra).
  assert (S6 : 2 < sqrt 6) by (apply sqrt_bound; lra).
  assert (T6 : tan (PI / 6) = 1 / sqrt 3) by apply tan_PI6.
  assert (Q3 : 1 / sqrt 3 = sqrt 3 / 3).
  { pose proof (sqrt_sqrt 3 ltac:(lra)) as Q. field_simplify_eq; [|lra]. replace (sqrt 3 ^ 2) with (sqrt 3 * sqrt 3) by ring. lra. }
  assert (I6 : inv (PI / 6) = sqrt 3 / 3 - PI / 6) by (unfold inv; rewrite T6, Q3; ring).
  assert (SB : forall y, 1 / 1000 < y < 1 -> 1 / 4000 < sin y).
  { intros y Y. pose proof (sin_concave (y / (PI / 2)) (PI / 2)) as K. rewrite sin_PI2 in K.
    replace (y / (PI / 2) * (PI / 2)) with y in K by (field; lra).
    assert (B : y / 2 <= y / (PI / 2) < 1).
    { split.
      - apply Rmult_le_compat_l; [lra|]. apply Rinv_le_contravar; lra.
      - apply Rmult_lt_reg_r with (PI / 2); [lra|]. replace (y / (PI / 2) * (PI / 2)) with y by (field; lra). lra. }
    specialize (K ltac:(lra) ltac:(lra)). lra. }
  assert (PI0 : ig_pia g 0 = PI / 16) by (rewrite PA; field).
  destruct (C106_gear sv (meets_at 1) ts g 8 0 PL SP SE) as (p & c & E1 & E2 & E3 & _).
  - unfold space_width. rewrite EI, PI0. cbn [ex_param ip_alpha ip_ded ip_shift].
    rewrite flank_low; rewrite ?C; try lra. rewrite I6.
    match goal with |- _ < 2 * _ * sin ?a => assert (1 / 4000 < sin a) by (apply SB; lra) end. lra.
  - unfold land_width. rewrite EI, PI0. cbn [ex_param ip_alpha ip_add ip_shift].
    assert (FA : flank_angle (8 / 2) (PI / 6) (PI / 16) (8 / 2 + (2 * sqrt 6 - 4 + 0)) = 1 - PI / 4 - (sqrt 3 / 3 - PI / 6) - PI / 16).
    { unfold flank_angle. replace (8 / 2 + (2 * sqrt 6 - 4 + 0)) with (2 * (sqrt 2 * sqrt 3)).
      2:{ rewrite <- sqrt_mult by lra. replace (2 * 3) with 6 by ring. field. }
      assert (S2 : 0 < sqrt 2) by (apply sqrt_lt_R0; lra).
      replace (8 / 2 * cos (PI / 6) / (2 * (sqrt 2 * sqrt 3))) with (1 / sqrt 2) by (rewrite C; field; lra).
      rewrite <- cos_PI4, Rmin_right by apply COS_bound. rewrite acos_cos by lra.
      unfold inv at 1. rewrite tan_PI4. rewrite I6. ring. }
    rewrite FA.
    assert (K : 1 / 4000 < sin (- (1 - PI / 4 - (sqrt 3 / 3 - PI / 6) - PI / 16))) by (apply SB; lra).
    assert (1 * (1 / 4000) < 2 * (8 / 2 + (2 * sqrt 6 - 4 + 0)) * sin (- (1 - PI / 4 - (sqrt 3 / 3 - PI / 6) - PI / 16)))
      by (apply Rmult_le_0_lt_compat; lra). lra.
  - exists p, c. auto.
Qed.
