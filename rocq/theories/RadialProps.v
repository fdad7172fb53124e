(** C125: outlines whose flanks move away from the axis, also where they are undercut, do not cross or touch themselves. *)
From Coq Require Import Nsatz Reals List ZArith Lra Lia Psatz.
From Verif Require Import Num Vec Transform TransformProps Params ParamsProps Coords CoordsProps Gen GenProps Interp Curve CurveLem
  CurveProps ArcLem ArcProps Chain ChainLem ChainProps GearLem GearMath MeshProps MeshDistProps Tooth Wrapper Info HelicalProps RefLines RefLinesProps
  Profile ProfileLem ProfileProps Build BuildProps Fillet FilletProps FlankProps ReduceProps Teeth CrownRackProps RackConjProps
  UndercutProps Cycloid RisingLem ClimbLem Report ReportProps SpurProps DefaultProps ReliefProps OutlineProps RadiiProps Part PartProps CycPart CycPartProps Boundary BoundaryProps.
Import ListNotations.
Open Scope R_scope.

(** ** Specification *)
(** The flank [t] of a gear whose teeth are [pitch] apart leads away from the axis and stays in the half of its tooth's sector before the
    tooth's symmetry plane; its direction from the axis may go back and forth. *)
Record outward (t : node) (pitch : R) : Prop := {
  ow_pitch : 0 < pitch < PI;
  ow_out : forall s u, 0 <= s -> s < u -> u <= 1 -> rad2 (n_point t s) < rad2 (n_point t u);
  ow_half : forall s, 0 <= s <= 1 -> exists r a, 0 < r /\ - (pitch / 2) < a < 0 /\ polar (n_point t s) r a }.

(** ** Lemmas *)
Lemma rad2_dst p : rad2 p = dst p * dst p.
Proof. unfold rad2, dst. rewrite sqrt_sqrt; [reflexivity|]. pose proof (Rle_0_sqr (vx p)). pose proof (Rle_0_sqr (vy p)). unfold Rsqr in *. lra. Qed.
Lemma dst_nonneg p : 0 <= dst p. Proof. apply sqrt_pos. Qed.

Section Radial.
  Variables (t : node) (pitch : R) (p : profile).
  Hypothesis F : flank_ok t.
  Hypothesis FR : List.Forall fresh (leaves t).
  Hypothesis NO : not_opposite t pitch.
  Hypothesis AS : assembled t pitch p.
  Hypothesis OW : outward t pitch.
  Hypothesis GR : / 10000000000 < root_gap t pitch.
  Hypothesis GT : / 10000000000 < tip_gap t.

  Let rho s := dst (n_point t s).
  Let phi s := ang (n_point t s).
  Let A := - pitch - phi 0.

  Lemma ow_polar s : 0 <= s <= 1 -> polar (n_point t s) (rho s) (phi s) /\ 0 < rho s /\ - (pitch / 2) < phi s < 0.
  Proof.
    intros S. destruct (ow_half _ _ OW s S) as (r & a & R & AA & P). pose proof (ow_pitch _ _ OW). pose proof PI_RGT_0.
    unfold rho, phi. rewrite (polar_ang _ _ _ P R), (polar_dst _ _ _ P R) by lra. auto.
  Qed.
  Lemma ow_rho s u : 0 <= s -> s < u -> u <= 1 -> rho s < rho u.
  Proof.
    intros S U V. pose proof (ow_out _ _ OW s u S U V) as K. rewrite !rad2_dst in K. fold (rho s) (rho u) in K.
    pose proof (dst_nonneg (n_point t s)). pose proof (dst_nonneg (n_point t u)). fold (rho s) in *. fold (rho u) in *.
    apply Rnot_le_lt. intros L. assert (rho u * rho u <= rho s * rho s) by (apply Rmult_le_compat; lra). lra.
  Qed.
  Lemma ow_sides s : 0 <= s <= 1 -> rho 0 <= rho s <= rho 1.
  Proof.
    intros S. split.
    - destruct (Req_dec s 0) as [->|N]; [lra|]. pose proof (ow_rho 0 s ltac:(lra) ltac:(lra) ltac:(lra)). lra.
    - destruct (Req_dec s 1) as [->|N]; [lra|]. pose proof (ow_rho s 1 ltac:(lra) ltac:(lra) ltac:(lra)). lra.
  Qed.

  (** What is known of each point of the outline of one tooth. *)
  Definition half (q : vec) : Prop := exists r a, polar q r a /\ rho 0 <= r <= rho 1 /\
    ((r = rho 0 /\ (A <= a <= phi 0 \/ a = - phi 0)) \/ (rho 0 < r /\ - (pitch / 2) < a < pitch / 2)).
  (** The place of a point in the order along the outline of one tooth: by angle on the root circle before the tooth, outwards on the first
      flank, by angle on the tip circle, inwards on the second flank. *)
  Definition key (q : vec) : R :=
    if Req_EM_T (dst q) (rho 0) then (if Rle_dec (ang q) 0 then ang q - 5 else rho 1 + 5 + 5 + rho 1 - dst q)
    else if Req_EM_T (dst q) (rho 1) then rho 1 + 5 + ang q
    else if Rle_dec (ang q) 0 then dst q else rho 1 + 5 + 5 + rho 1 - dst q.
  Definition sooner (q q' : vec) : Prop := key q < key q'.
  Lemma sooner_trans q q' q'' : sooner q q' -> sooner q' q'' -> sooner q q''. Proof. unfold sooner. lra. Qed.

  Lemma half_ranges : - PI < A /\ A < - (pitch / 2) /\ - (pitch / 2) < phi 0 /\ phi 0 < 0 /\ - (pitch / 2) < phi 1 /\ phi 1 < 0 /\ rho 0 < rho 1 /\ 0 < rho 0 /\ phi 0 - A < PI /\ 0 < pitch < PI /\ PI <= 4.
  Proof.
    destruct (ow_polar 0 ltac:(lra)) as (_ & R0 & P0). destruct (ow_polar 1 ltac:(lra)) as (_ & R1 & P1). pose proof (ow_rho 0 1 ltac:(lra) ltac:(lra) ltac:(lra)).
    pose proof (ow_pitch _ _ OW). pose proof PI_RGT_0. pose proof PI_4. unfold A. repeat split; lra.
  Qed.

  Ltac keys := unfold sooner, key; repeat match goal with |- context [Req_EM_T ?a ?b] => destruct (Req_EM_T a b) | |- context [Rle_dec ?a ?b] => destruct (Rle_dec a b) end; try lra.

  Lemma root_arc : let c := pr_rd p in arc_if c = [c] /\ climbing sooner [c] /\ inside half [c] /\
    walk [c] (total [c]) = n_point t 0 /\ walk [c] 0 = turn (- pitch) (flip (n_point t 0)).
  Proof.
    intros c. destruct half_ranges as (SA & SB & SC & SD & SE & SE' & SF & SG & SH & SP & P4).
    destruct (rd_facts t pitch p NO AS) as (_ & _ & _ & _ & _ & _ & G). destruct (G GR) as (EA & E0 & E1). fold c in EA, E0, E1.
    destruct (as_rd t pitch p AS) as (r & y & EC). rewrite (closing_active _ _ _ _ _ GR) in EC. fold c in EC.
    destruct (ow_polar 0 ltac:(lra)) as (PO & _).
    destruct (arc_polar (turn (- pitch) (flip (n_point t 0))) (n_point t 0) (rho 0) A (phi 0)) as (L & _ & _ & PP).
    - unfold A. replace (- pitch - phi 0) with (- phi 0 + - pitch) by ring. apply polar_turn, polar_flip, PO.
    - exact PO.
    - reflexivity.
    - exact SG.
    - lra.
    - rewrite <- EC in L, PP.
      assert (MO : forall s u, 0 <= s -> s < u -> u <= 1 ->
        A <= A + (phi 0 - A) * s /\ A + (phi 0 - A) * s < A + (phi 0 - A) * u /\ A + (phi 0 - A) * u <= phi 0).
      { intros s u S U V. assert (0 <= (phi 0 - A) * s) by (apply Rmult_le_pos; lra).
        assert ((phi 0 - A) * s < (phi 0 - A) * u) by (apply Rmult_lt_compat_l; lra).
        assert ((phi 0 - A) * u <= (phi 0 - A) * 1) by (apply Rmult_le_compat_l; lra). lra. }
      split; [exact EA|]. split; [|split; [|split]].
      + apply climbing_one; [exact L|]. intros s u S U V. destruct (MO s u S U V) as (M1 & M2 & M3).
        unfold sooner, key. rewrite !(polar_ang _ _ _ (PP _) SG), !(polar_dst _ _ _ (PP _) SG) by lra. keys.
      + apply inside_one; [exact L|]. intros s S. exists (rho 0), (A + (phi 0 - A) * s). split; [apply PP|].
        assert (0 <= (phi 0 - A) * s) by (apply Rmult_le_pos; lra).
        assert ((phi 0 - A) * s <= (phi 0 - A) * 1) by (apply Rmult_le_compat_l; lra).
        split; [lra|]. left. split; [reflexivity|]. left. lra.
      + rewrite (walk_end' [c] c); [exact E1|]. split; [discriminate|]. constructor; [exact L|constructor].
      + rewrite walk_start by exact L. exact E0.
  Qed.

  Lemma tip_arc : let c := pr_ra p in arc_if c = [c] /\ climbing sooner [c] /\ inside half [c] /\
    walk [c] (total [c]) = flip (n_point t 1) /\ walk [c] 0 = n_point t 1.
  Proof.
    intros c. destruct half_ranges as (SA & SB & SC & SD & SE & SE' & SF & SG & SH & SP & P4).
    destruct (ra_facts t pitch p NO AS) as (_ & _ & _ & _ & _ & _ & G). destruct (G GT) as (EA & E0 & E1). fold c in EA, E0, E1.
    destruct (as_ra t pitch p AS) as (r & y & EC). rewrite (closing_active _ _ _ _ _ GT) in EC. fold c in EC.
    assert (RP : 0 < rho 1) by lra. destruct (ow_polar 1 ltac:(lra)) as (PO & _).
    destruct (arc_polar (n_point t 1) (flip (n_point t 1)) (rho 1) (phi 1) (- phi 1)) as (L & _ & _ & PP).
    - exact PO.
    - apply polar_flip, PO.
    - reflexivity.
    - exact RP.
    - lra.
    - rewrite <- EC in L, PP.
      assert (MO : forall s u, 0 <= s -> s < u -> u <= 1 ->
        phi 1 <= phi 1 + (- phi 1 - phi 1) * s /\ phi 1 + (- phi 1 - phi 1) * s < phi 1 + (- phi 1 - phi 1) * u /\ phi 1 + (- phi 1 - phi 1) * u <= - phi 1).
      { intros s u S U V. assert (0 <= (- phi 1 - phi 1) * s) by (apply Rmult_le_pos; lra).
        assert ((- phi 1 - phi 1) * s < (- phi 1 - phi 1) * u) by (apply Rmult_lt_compat_l; lra).
        assert ((- phi 1 - phi 1) * u <= (- phi 1 - phi 1) * 1) by (apply Rmult_le_compat_l; lra). lra. }
      split; [exact EA|]. split; [|split; [|split]].
      + apply climbing_one; [exact L|]. intros s u S U V. destruct (MO s u S U V) as (M1 & M2 & M3).
        unfold sooner, key. rewrite !(polar_ang _ _ _ (PP _) RP), !(polar_dst _ _ _ (PP _) RP) by lra. keys.
      + apply inside_one; [exact L|]. intros s S. exists (rho 1), (phi 1 + (- phi 1 - phi 1) * s). split; [apply PP|].
        assert (0 <= (- phi 1 - phi 1) * s) by (apply Rmult_le_pos; lra).
        assert ((- phi 1 - phi 1) * s <= (- phi 1 - phi 1) * 1) by (apply Rmult_le_compat_l; lra).
        split; [lra|]. right. split; lra.
      + rewrite (walk_end' [c] c); [exact E1|]. split; [discriminate|]. constructor; [exact L|constructor].
      + rewrite walk_start by exact L. exact E0.
  Qed.

  Lemma flank_legs : climbing sooner (leaves t) /\ inside half (leaves t) /\
    walk (leaves t) (total (leaves t)) = n_point t 1 /\ walk (leaves t) 0 = n_point t 0.
  Proof.
    destruct half_ranges as (SA & SB & SC & SD & SE & SE' & SF & SG & SH & SP & P4).
    assert (PO : positive (leaves t)) by (split; [apply active_leaves, F|apply (fo_pos t F)]).
    pose proof (positive_total _ PO) as TP.
    assert (W : forall x, walk (leaves t) x = n_point t (x / total (leaves t))).
    { intros x. rewrite (leaves_walk t (fo_act t F) (fo_pos t F)). f_equal. field. lra. }
    split; [|split; [|split]].
    - split; [exact PO|]. intros x y X XY Y. rewrite !W.
      pose proof (div_01 x _ TP ltac:(lra)) as B0. pose proof (div_01 y _ TP ltac:(lra)) as B1. pose proof (div_lt x y _ TP XY) as B2.
      set (s := x / _) in *. set (u := y / _) in *.
      pose proof (ow_sides s B0). pose proof (ow_sides u B1). pose proof (ow_rho s u ltac:(lra) B2 ltac:(lra)).
      destruct (ow_polar s B0) as (_ & _ & As). destruct (ow_polar u B1) as (_ & _ & Au).
      unfold sooner, key. fold (rho s) (rho u) (phi s) (phi u). keys.
    - intros x X. rewrite W. pose proof (div_01 x _ TP ltac:(lra)) as B0. set (s := x / _) in *.
      pose proof (ow_sides s B0). destruct (ow_polar s B0) as (Ps & _ & As). exists (rho s), (phi s). split; [exact Ps|]. split; [lra|].
      destruct (Req_dec s 0) as [->|N]; [left; split; [reflexivity|left; lra]|right].
      pose proof (ow_rho 0 s ltac:(lra) ltac:(lra) ltac:(lra)). split; lra.
    - rewrite W. f_equal. field. lra.
    - rewrite W. f_equal. field. lra.
  Qed.

  Lemma mirror_leg : let c := mirror_curve t in climbing sooner [c] /\ inside half [c] /\
    walk [c] (total [c]) = flip (n_point t 0) /\ walk [c] 0 = flip (n_point t 1).
  Proof.
    intros c. destruct half_ranges as (SA & SB & SC & SD & SE & SE' & SF & SG & SH & SP & P4).
    destruct (mirror_curve_facts t F) as (FM & AM & L & I & E0 & E1). fold c in FM, AM, L, I, E0, E1.
    assert (EV : forall s, c_eval c s = flip (n_point t (s2t c s))).
    { intros s. unfold c_eval, c_fun. unfold c at 1, mirror_curve. cbn [new_curve update_lengths c_shape]. rewrite shape_fun_gen. apply flip_mirror. }
    assert (T0 : c_t0 c = 1) by reflexivity. assert (T1 : c_t1 c = 0) by reflexivity.
    assert (ND : (2 <= c_ndiv c)%nat) by apply NDIV_2.
    destruct (C28_ends c FM ND I) as (S0 & S1). rewrite T0 in S0. rewrite T1 in S1.
    pose proof (C28_strictly_monotone_reversed c FM ND I ltac:(lra)) as MO.
    assert (BD : forall s, 0 <= s <= 1 -> 0 <= s2t c s <= 1).
    { intros s S. split.
      - destruct (Req_dec s 1) as [->|N]; [lra|]. rewrite <- S1. left. apply MO; lra.
      - destruct (Req_dec s 0) as [->|N]; [lra|]. rewrite <- S0. left. apply MO; lra. }
    assert (PL : forall s, 0 <= s <= 1 -> polar (c_eval c s) (rho (s2t c s)) (- phi (s2t c s))).
    { intros s S. rewrite EV. apply polar_flip, ow_polar, BD, S. }
    clearbody c. split; [|split; [|split]].
    - apply climbing_one; [exact L|]. intros s u S U V.
      pose proof (PL s ltac:(lra)) as Ps. pose proof (PL u ltac:(lra)) as Pu.
      pose proof (MO s u S U V) as M. pose proof (BD s ltac:(lra)) as Bs. pose proof (BD u ltac:(lra)) as Bu.
      set (s' := s2t c s) in *. set (u' := s2t c u) in *.
      pose proof (ow_sides s' Bs). pose proof (ow_sides u' Bu). pose proof (ow_rho u' s' ltac:(lra) M ltac:(lra)).
      destruct (ow_polar s' Bs) as (_ & _ & As). destruct (ow_polar u' Bu) as (_ & _ & Au).
      unfold sooner, key.
      rewrite (polar_ang _ _ _ Ps), (polar_ang _ _ _ Pu), (polar_dst _ _ _ Ps), (polar_dst _ _ _ Pu) by lra. keys.
    - apply inside_one; [exact L|]. intros s S. pose proof (BD s S) as Bs. exists (rho (s2t c s)), (- phi (s2t c s)). split; [apply PL, S|].
      pose proof (ow_sides _ Bs). destruct (ow_polar _ Bs) as (_ & _ & As). split; [lra|]. set (s' := s2t c s) in *.
      destruct (Req_dec s' 0) as [->|N]; [left; split; [reflexivity|right; reflexivity]|right].
      pose proof (ow_rho 0 s' ltac:(lra) ltac:(lra) ltac:(lra)). split; lra.
    - rewrite (walk_end' [c] c); [exact E1|]. split; [discriminate|]. constructor; [exact L|constructor].
    - rewrite walk_start by exact L. exact E0.
  Qed.

  Lemma tooth_round : (forall s, 0 <= s <= 1 -> half (n_point (pr_chain p) s)) /\
    (forall s u, 0 <= s -> s < u -> u <= 1 -> sooner (n_point (pr_chain p) s) (n_point (pr_chain p) u)) /\
    n_point (pr_chain p) 1 = flip (n_point t 0).
  Proof.
    destruct root_arc as (R1 & R2 & R3 & R4 & R5). destruct tip_arc as (T1 & T2 & T3 & T4 & T5).
    destruct flank_legs as (F2 & F3 & F4 & F5). destruct mirror_leg as (M2 & M3 & M4 & M5).
    destruct (chain_pieces t pitch p F FR NO AS) as (EC & EL). unfold pieces in EL. rewrite R1, T1 in EL.
    set (cs := [pr_rd p] ++ leaves t ++ [pr_ra p] ++ [mirror_curve t]) in *.
    assert (C1 : climbing sooner ([pr_ra p] ++ [mirror_curve t])).
    { apply climbing_app; [apply sooner_trans|exact T2|exact M2|congruence]. }
    assert (HD : forall a b, positive a -> walk (a ++ b) 0 = walk a 0).
    { intros a b (NA & PA). apply walk_app_l; [apply pos_nonneg, PA|exact NA|right]. pose proof (positive_total a (conj NA PA)). lra. }
    assert (C2 : climbing sooner (leaves t ++ [pr_ra p] ++ [mirror_curve t])).
    { apply climbing_app; [apply sooner_trans|exact F2|exact C1|]. rewrite HD by apply (proj1 T2). congruence. }
    assert (C3 : climbing sooner cs).
    { apply climbing_app; [apply sooner_trans|exact R2|exact C2|]. rewrite HD by apply (proj1 F2). congruence. }
    assert (I3 : inside half cs).
    { apply inside_app; [apply (proj1 R2)|apply (proj1 C2)|exact R3|]. apply inside_app; [apply (proj1 F2)|apply (proj1 C1)|exact F3|].
      apply inside_app; [apply (proj1 T2)|apply (proj1 M2)|exact T3|exact M3]. }
    destruct C3 as (PO & MO). pose proof (positive_total _ PO) as TP.
    assert (LV : leaves (pr_chain p) = cs) by (rewrite EC; exact EL).
    assert (AC : n_active (pr_chain p) = true) by (apply active_leaves; rewrite LV; apply PO).
    assert (W : forall s, n_point (pr_chain p) s = walk cs (s * total cs)).
    { intros s. rewrite <- LV. apply leaves_walk; [exact AC|]. rewrite LV. apply PO. }
    assert (B : forall s, 0 <= s <= 1 -> 0 <= s * total cs <= total cs).
    { intros s S. split; [apply Rmult_le_pos; lra|]. rewrite <- (Rmult_1_l (total cs)) at 2. apply Rmult_le_compat_r; lra. }
    split; [|split].
    - intros s S. rewrite W. apply I3, B, S.
    - intros s u S U V. rewrite !W. apply MO; [apply B; lra|apply Rmult_lt_compat_r; assumption|apply B; lra].
    - destruct (profile_ends t pitch p F FR NO AS) as (E1 & _). unfold n_point at 1. rewrite E1. reflexivity.
  Qed.

  (** Points of the outline of one tooth other than its end. *)
  Definition half_open (q : vec) : Prop := polar q (dst q) (ang q) /\ rho 0 <= dst q <= rho 1 /\
    ((dst q = rho 0 /\ A <= ang q <= phi 0) \/ (rho 0 < dst q /\ - (pitch / 2) < ang q < pitch / 2)).
  Lemma tooth_half s : 0 <= s < 1 -> half_open (n_point (pr_chain p) s).
  Proof.
    intros S. destruct half_ranges as (SA & SB & SC & SD & SE & SE' & SF & SG & SH & SP & P4). destruct tooth_round as (HS & MO & EN).
    destruct (HS s ltac:(lra)) as (r & a & P & R & C). pose proof (MO s 1 ltac:(lra) ltac:(lra) ltac:(lra)) as B. rewrite EN in B.
    destruct (ow_polar 0 ltac:(lra)) as (PO & _). pose proof (polar_flip _ _ _ PO) as PF.
    set (q := n_point (pr_chain p) s) in *. assert (RA : - PI < a <= PI) by (destruct C as [(_ & [C|C])|(_ & C)]; lra).
    unfold half_open. unfold sooner, key in B. rewrite (polar_ang _ _ _ PF), (polar_dst _ _ _ PF) in B by lra. rewrite (polar_ang q r a P), (polar_dst q r a P) in * by lra.
    split; [exact P|]. split; [lra|]. destruct C as [(-> & [C|C])|C]; [left; lra| |right; exact C].
    exfalso. subst a. destruct (Req_EM_T (rho 0) (rho 0)); [|lra]. destruct (Rle_dec (- phi 0) 0); lra.
  Qed.

  Lemma round_polar n x : let k := turn_no n x in let q := n_point (pr_chain p) (x * n - k) in
    0 <= x * n - k < 1 /\ half_open q /\ polar (boundary_fun p pitch n x) (dst q) (ang q + k * pitch).
  Proof.
    intros k q. pose proof (floorZ_bound (x * n)) as FS. fold (turn_no n x) in FS. fold k in FS.
    assert (B : 0 <= x * n - k < 1) by lra. split; [exact B|]. assert (S : half_open q) by (apply tooth_half; lra). split; [exact S|].
    unfold boundary_fun. fold (turn_no n x). fold k. fold q. rewrite <- turn_rotz. apply polar_turn. apply S.
  Qed.

  (** Two places on the outline at the same point of the plane are the same place. *)
  Lemma round_injective N x y : (0 < N)%Z -> pitch = 2 * PI / IZR N -> 0 <= x < 1 -> 0 <= y < 1 ->
    boundary_fun p pitch (IZR N) x = boundary_fun p pitch (IZR N) y -> x = y.
  Proof.
    intros HN EP X Y E. apply IZR_lt in HN. destruct half_ranges as (SA & SB & SC & SD & SE & SE' & SF & SG & SH & SP & P4).
    destruct (round_polar (IZR N) x) as (Bx & (_ & Dx & Cx) & Px). destruct (round_polar (IZR N) y) as (By & (_ & Dy & Cy) & Py).
    rewrite E in Px. unfold turn_no in *. set (k := floorZ (x * IZR N)) in *. set (l := floorZ (y * IZR N)) in *.
    set (s := x * IZR N - IZR k) in *. set (u := y * IZR N - IZR l) in *.
    destruct tooth_round as (_ & MO & _).
    set (q := n_point (pr_chain p) s) in *. set (q' := n_point (pr_chain p) u) in *.
    destruct (polar_unique _ _ _ _ _ Px Py ltac:(lra) ltac:(lra)) as (ED & j & EA).
    assert (PN : IZR N * pitch = 2 * PI) by (rewrite EP; field; lra).
    assert (PP : 0 < pitch) by lra.
    assert (M : ang q - ang q' = IZR (l - k + j * N) * pitch).
    { rewrite plus_IZR, minus_IZR, mult_IZR. replace (2 * IZR j * PI) with (IZR j * (IZR N * pitch)) in EA by (rewrite PN; ring). lra. }
    assert (KL : 0 <= x * IZR N < IZR N /\ 0 <= y * IZR N < IZR N).
    { split; (split; [apply Rmult_le_pos; lra|]; rewrite <- (Rmult_1_l (IZR N)) at 2; apply Rmult_lt_compat_r; lra). }
    assert (KI : (-1 < k < N)%Z) by (split; apply lt_IZR; unfold s, u in *; lra).
    assert (LI : (-1 < l < N)%Z) by (split; apply lt_IZR; unfold s, u in *; lra).
    set (m := (l - k + j * N)%Z) in *.
    assert (WA : phi 0 - A < pitch) by (unfold A; lra).
    assert (MB : (m = 0)%Z).
    { assert (K : -1 < IZR m < 1).
      { assert (- pitch < ang q - ang q' < pitch) by (destruct Cx as [Cx|Cx]; destruct Cy as [Cy|Cy]; lra).
        split; apply Rmult_lt_reg_r with pitch; lra. }
      destruct K as (K1 & K2). apply lt_IZR in K1. apply lt_IZR in K2. lia. }
    rewrite MB in M. assert (EQ : ang q = ang q') by lra. assert (RK : key q = key q') by (unfold key; rewrite EQ, ED; reflexivity).
    assert (SU : s = u).
    { destruct (Rtotal_order s u) as [L|[L|L]]; [|exact L|]; exfalso.
      - pose proof (MO s u ltac:(lra) L ltac:(lra)) as B. unfold sooner in B. fold q q' in B. lra.
      - pose proof (MO u s ltac:(lra) L ltac:(lra)) as B. unfold sooner in B. fold q q' in B. lra. }
    assert (J0 : (j = 0)%Z). { unfold m in MB. assert (N > 0)%Z by (apply lt_IZR in HN; lia). nia. }
    assert (KK : k = l) by (unfold m in MB; subst j; lia).
    apply Rmult_eq_reg_r with (IZR N); [|lra]. unfold s, u in SU. rewrite KK in SU. lra.
  Qed.
  Lemma round_inside n x : exists r a, polar (boundary_fun p pitch n x) r a /\ dst (n_point t 0) <= r <= dst (n_point t 1).
  Proof. destruct (round_polar n x) as (_ & (_ & D & _) & P). eexists. eexists. split; [exact P|exact D]. Qed.
End Radial.

(** ** C125 *)
Lemma outward_sides t pitch : outward t pitch -> not_opposite t pitch.
Proof.
  intros [P O H]. pose proof PI_RGT_0. destruct (H 0 ltac:(lra)) as (r0 & a0 & R0 & A0 & X0 & Y0). destruct (H 1 ltac:(lra)) as (r1 & a1 & R1 & A1 & X1 & _).
  unfold not_opposite. rewrite X0, Y0, X1. split.
  - assert (0 < r1 * cos a1) by (apply Rmult_lt_0_compat; [lra|apply cos_gt_0; lra]). lra.
  - assert (0 < r0 * cos (a0 + pitch / 2)) by (apply Rmult_lt_0_compat; [lra|apply cos_gt_0; lra]).
    rewrite cos_plus in *. lra.
Qed.

(** No two places on the outline of the gear coincide, and the outline stays between the circles through the ends of the flank. *)
Theorem C125_simple sv tooth rc tipf rootf N t p : (0 < N)%Z ->
  let pitch := 2 * PI / IZR N in
  List.Forall fresh (leaves tooth) -> trim_flank sv tooth rc tipf rootf pitch = Ok t -> flank_ok t ->
  outward t pitch -> / 10000000000 < root_gap t pitch -> / 10000000000 < tip_gap t ->
  trim_reference_profile sv tooth rc tipf rootf pitch = Ok p ->
  (forall x y, 0 <= x < 1 -> 0 <= y < 1 -> boundary_fun p pitch (IZR N) x = boundary_fun p pitch (IZR N) y -> x = y) /\
  (forall x, rad2 (n_point t 0) <= rad2 (boundary_fun p pitch (IZR N) x) <= rad2 (n_point t 1)).
Proof.
  intros HN pitch FT TR F OW GR GT EP. pose proof (outward_sides _ _ OW) as NO.
  destruct (trimmed_assembled _ _ _ _ _ _ _ _ FT TR F NO EP) as (FR & AS). split.
  - intros x y. apply (round_injective t pitch p F FR NO AS OW GR GT N); [exact HN|reflexivity].
  - intros x. destruct (round_inside t pitch p F FR NO AS OW GR GT (IZR N) x) as (r & a & P & R). pose proof (dst_nonneg (n_point t 0)).
    assert (E : rad2 (boundary_fun p pitch (IZR N) x) = r * r) by (destruct P as (PX & PY); unfold rad2; rewrite PX, PY; pose proof (sc1 a); nsatz).
    rewrite E, !rad2_dst. split; apply Rmult_le_compat; lra.
Qed.

(** ** The outline of a gear *)
(** The teeth of the section at the height [z]: two places on them coincide only if they are the same place. *)
Definition apart (k : core) (p : profile) (z : R) (n : Z) : Prop :=
  forall i j u v, (0 <= i < n)%Z -> (0 <= j < n)%Z -> 0 <= u < 1 -> 0 <= v < 1 -> section_pt k p z i u = section_pt k p z j v -> i = j /\ u = v.
(** What the outline of a section is: one closed curve in the plane of the profile, and the same in the gear's place in the world. *)
Record simple_outline (k : core) (p : profile) (z : R) (n : Z) (t : node) : Prop := {
  so_curve : exists c, generate_boundary p (PyInt n) (2 * PI / IZR n) (IZR n) = Ok c /\ forall s u, 0 <= s < 1 -> 0 <= u < 1 -> c_eval c s = c_eval c u -> s = u;
  so_bounds : forall x, rad2 (n_point t 0) <= rad2 (boundary_fun p (2 * PI / IZR n) (IZR n) x) <= rad2 (n_point t 1);
  so_apart : g_scale (k_trf k) <> 0 -> orthogonal (g_orient (k_trf k)) -> apart k p z n;
  so_chain : exists c, boundary_at_z k (PyInt n) p false = Ok c /\
    forall q, (exists x, 0 <= x <= 1 /\ c_fun c x = q) <-> (exists i u, (0 <= i < n)%Z /\ 0 <= u <= 1 /\ section_pt k p z i u = q) }.

Lemma outline_simple sv f rc tipf rootf n t p0 p k z : (0 < n)%Z -> let pitch := 2 * PI / IZR n in
  List.Forall fresh (leaves f) -> trim_flank sv f rc tipf rootf pitch = Ok t -> flank_ok t ->
  outward t pitch -> / 10000000000 < root_gap t pitch -> / 10000000000 < tip_gap t ->
  trim_reference_profile sv f rc tipf rootf pitch = Ok p0 -> pr_chain p = pr_chain p0 ->
  num_teeth (k_tooth k) = IZR n -> num_teeth_act (k_tooth k) = n -> k_gamma k = 0 -> pr_trf p = k_slice k z ->
  simple_outline k p z n t.
Proof.
  intros HN pitch FT TR F OW GR GT EP PC KN KA KG PZ. pose proof (outward_sides _ _ OW) as NO.
  destruct (C125_simple sv f rc tipf rootf n t p0 HN FT TR F OW GR GT EP) as (INJ & BND). fold pitch in INJ, BND.
  assert (BF : forall x, boundary_fun p pitch (IZR n) x = boundary_fun p0 pitch (IZR n) x) by (intros x; unfold boundary_fun; rewrite PC; reflexivity).
  assert (INJ' : forall x y, 0 <= x < 1 -> 0 <= y < 1 -> boundary_fun p pitch (IZR n) x = boundary_fun p pitch (IZR n) y -> x = y) by (intros x y; rewrite !BF; apply INJ).
  pose proof (IZR_lt 0 n HN) as N0.
  assert (N2 : (2 <= n)%Z).
  { pose proof (proj2 (ow_pitch _ _ OW)) as K. unfold pitch in K. pose proof PI_RGT_0. apply (Rmult_lt_compat_r (IZR n)) in K; [|exact N0].
    replace (2 * PI / IZR n * IZR n) with (PI * 2) in K by (field; lra). apply Rmult_lt_reg_l in K; [|lra]. apply lt_IZR in K. lia. }
  assert (SC : g_scale (k_slice k z) <> 0) by (unfold k_slice; cbn [g_scale]; rewrite KG, sin_0; unfold Rdiv; rewrite Rmult_0_r, Rmult_0_l; lra).
  destruct (C53_profile sv f rc tipf rootf pitch t FT TR F NO) as (p' & a & b & EP' & EA & EB & _ & _ & PE & _).
  rewrite EP in EP'. injection EP' as <-.
  assert (CL : n_point (pr_chain p) 1 = turn pitch (n_point (pr_chain p) 0)) by (rewrite PC; unfold n_point; rewrite EA, EB; apply PE, GR).
  assert (AC : n_active (pr_chain p) = true).
  { rewrite PC. destruct (trimmed_assembled _ _ _ _ _ _ _ _ FT TR F NO EP) as (FR' & AS). destruct (chain_pieces t _ p0 F FR' NO AS) as (EX & EL).
    assert (LV : leaves (pr_chain p0) = pieces t p0) by (rewrite EX; exact EL). apply active_leaves. rewrite LV. unfold pieces. intros X. apply app_eq_nil in X. destruct X as (_ & X). apply app_eq_nil in X. destruct X as (X & _).
    revert X. apply active_leaves, (fo_act t F). }
  split.
  - apply boundary_object; assumption.
  - intros x. fold pitch. rewrite BF. apply BND.
  - intros SW OR i j u v I J U V E. unfold section_pt in E. apply place_inj in E; [|assumption..]. apply place_inj in E; [|exact SC|apply rotation_I].
    unfold tooth_pt in E. rewrite KN in E. fold pitch in E.
    assert (T : forall m x, (0 <= m < n)%Z -> 0 <= x < 1 -> turn (IZR m * pitch) (n_point (pr_chain p) x) = boundary_fun p pitch (IZR n) ((IZR m + x) / IZR n) /\ 0 <= (IZR m + x) / IZR n < 1).
    { intros m x M X. assert (M0 : 0 <= IZR m) by (apply IZR_le; lia). assert (M1 : IZR m + 1 <= IZR n) by (rewrite <- plus_IZR; apply IZR_le; lia). split.
      - pose proof (C53_teeth p pitch (IZR n) (Z.to_nat m) x N0 X) as K. rewrite INR_IZR_INZ, Z2Nat.id in K by lia. symmetry. exact K.
      - split; [apply Rmult_le_pos; [lra|left; apply Rinv_0_lt_compat, N0]|]. apply Rmult_lt_reg_r with (IZR n); [exact N0|]. replace ((IZR m + x) / IZR n * IZR n) with (IZR m + x) by (field; lra). lra. }
    destruct (T i u I U) as (T1 & T2). destruct (T j v J V) as (T3 & T4). rewrite T1, T3 in E. apply INJ' in E; [|assumption..].
    apply (f_equal (fun x => x * IZR n)) in E. replace ((IZR i + u) / IZR n * IZR n) with (IZR i + u) in E by (field; lra). replace ((IZR j + v) / IZR n * IZR n) with (IZR j + v) in E by (field; lra).
    assert (IJ : i = j).
    { assert (IZR i < IZR j + 1 /\ IZR j < IZR i + 1) as (L1 & L2) by lra. rewrite <- plus_IZR in L1, L2. apply lt_IZR in L1. apply lt_IZR in L2. lia. }
    split; [exact IJ|]. rewrite IJ in E. lra.
  - assert (EC : exists c, boundary_at_z k (PyInt n) p false = Ok c) by (eexists; reflexivity). destruct EC as (c & EC). exists c. split; [exact EC|].
    destruct (C124_chain_points k p z (PyInt n) c) as (_ & CQ); try assumption.
    + rewrite KA. lia.
    + apply (simple_from_boundary p n N2); [exact CL|exact INJ'].
    + unfold tp_pitch_angle. rewrite KN. exact CL.
    + rewrite KA in CQ. exact CQ.
Qed.

(** Cylindrical involute gears, with or without undercut, tip truncation, fillets, crowning or helix. *)
Theorem C125_gear sv fs ts g n z t : cyl_gear g n -> toothed sv fs ts g n z t -> outward t (2 * PI / IZR n) ->
  exists p, ig_profile sv fs ts g z = Ok p /\ simple_outline (ig_core g) p z n t.
Proof.
  intros CG [(rc & [FO NO (tooth & f & ET & ERC & EF & FR & TR)]) FT RG TG _] OW. cbv zeta in *. rewrite (cg_teeth _ _ CG) in *.
  set (pitch := 2 * PI / IZR n) in *.
  pose proof (trim_leaves_fresh _ _ _ _ _ _ _ FR TR) as FL. destruct (assemble_ok t rc pitch FO FL NO) as (p0 & EP & AS).
  assert (E0 : trim_reference_profile sv f rc (ip_tip_fillet (ig_in g)) (ip_root_fillet (ig_in g)) pitch = Ok p0) by (unfold trim_reference_profile; rewrite TR; exact EP).
  assert (E1 : exists p, ig_profile sv fs ts g z = Ok p /\ pr_chain p = pr_chain p0).
  { unfold ig_profile. rewrite ET. cbn [bind]. unfold generate_reference_profile. rewrite <- ERC, (cg_teeth _ _ CG). fold pitch. rewrite EF. cbn [bind]. rewrite E0. cbn [bind].
    eexists. split; reflexivity. }
  destruct E1 as (p & E1 & PC). exists p. split; [exact E1|].
  apply (outline_simple sv f rc (ip_tip_fillet (ig_in g)) (ip_root_fillet (ig_in g)) n t p0); try assumption.
  - apply (cg_n _ _ CG).
  - apply (cg_num _ _ CG).
  - apply (cg_act _ _ CG).
  - apply (cg_gamma _ _ CG).
  - apply (profile_slice _ _ _ _ _ _ E1).
Qed.

(** Cylindrical cycloid gears. *)
Theorem C125_cycloid_gear sv fs top g n z t : cyc_gear g n -> cyc_toothed sv fs top g n z t -> outward t (2 * PI / IZR n) ->
  exists p, cg_profile sv fs top g z = Ok p /\ simple_outline (cg_core g) p z n t.
Proof.
  intros CG [(rc & [FO NO (f & ERC & EF & FR & TR)]) FT RG TG _] OW. cbv zeta in *. rewrite (yg_teeth _ _ CG) in *.
  set (pitch := 2 * PI / IZR n) in *.
  pose proof (trim_leaves_fresh _ _ _ _ _ _ _ FR TR) as FL. destruct (assemble_ok t rc pitch FO FL NO) as (p0 & EP & AS).
  assert (E0 : trim_reference_profile sv f rc (cp_tip_fillet (cg_in g)) (cp_root_fillet (cg_in g)) pitch = Ok p0) by (unfold trim_reference_profile; rewrite TR; exact EP).
  assert (E1 : exists p, cg_profile sv fs top g z = Ok p /\ pr_chain p = pr_chain p0 /\ pr_trf p = k_slice (cg_core g) z).
  { unfold cg_profile. unfold generate_reference_profile. rewrite <- ERC, (yg_teeth _ _ CG). fold pitch. rewrite EF. cbn [bind]. rewrite E0. cbn [bind].
    eexists. split; [reflexivity|]. split; reflexivity. }
  destruct E1 as (p & E1 & PC & PZ). exists p. split; [exact E1|].
  apply (outline_simple sv f rc (cp_tip_fillet (cg_in g)) (cp_root_fillet (cg_in g)) n t p0); try assumption.
  - apply (yg_n _ _ CG).
  - apply (yg_num _ _ CG).
  - apply (yg_act _ _ CG).
  - apply (yg_gamma _ _ CG).
Qed.

(** ** Cycloid gears with the default parameters *)
Lemma polar_right q : 0 < vx q -> exists r a, 0 < r /\ - (PI / 2) < a < PI / 2 /\ polar q r a.
Proof.
  intros X. set (a := atan (vy q / vx q)). pose proof (atan_bound (vy q / vx q)) as B. fold a in B. assert (C : 0 < cos a) by (apply cos_gt_0; lra).
  exists (vx q / cos a), a. split; [apply Rdiv_lt_0_compat; assumption|]. split; [lra|]. split; [field; lra|].
  pose proof (tan_atan (vy q / vx q)) as T. fold a in T. unfold tan in T.
  assert (E : sin a = vy q / vx q * cos a) by (rewrite <- T; field; lra). rewrite E. field. lra.
Qed.
Theorem C125_cycloid n height helix center angle module inside zanchor sv fs top : (9 <= n)%Z ->
  let g := default_cycloid n height helix center angle module inside zanchor in
  cyc_searches n height helix center angle module inside zanchor sv fs top ->
  exists t p, cyc_toothed sv fs top g n 0 t /\ outward t (2 * PI / IZR n) /\ cg_profile sv fs top g 0 = Ok p /\ simple_outline (cg_core g) p 0 n t /\
    axis_dist (n_point t 0) = IZR n / 2 - 6 / 5 /\ axis_dist (n_point t 1) = IZR n / 2 + 1.
Proof.
  intros N g SS.
  destruct (cd_pa n N) as (pa & A & E & W). pose proof (cd_plain n height helix center angle module inside zanchor N sv fs top pa SS A E) as YP.
  pose proof (cd_n n N) as NN. destruct (cd_ta n N) as (T0 & T1). destruct (cd_td n N) as (D0 & D1).
  destruct (cd_k n height helix center angle module inside zanchor N 0) as (K1 & K2 & K3 & K4 & K5).
  destruct (cd_sizes n height helix center angle module inside zanchor N) as (S1 & S2). destruct (cd_sin n N) as (SN & P0 & C0).
  pose proof (cd_cyc n height helix center angle module inside zanchor N) as CG. fold g in YP, K1, K2, K3, K4, K5, S1, S2, CG.
  set (rp := IZR n / 2) in *. set (pia := PI / (2 * IZR n)) in *.
  set (ta := asin _) in *. set (td := - acos _) in *.
  destruct (C123_teeth sv fs top g n 0 td (- pia) ta pa CG YP) as (t & TD & Q0 & Q1 & PTS & UPS & _).
  - rewrite K1. fold rp. lra.
  - exact S1.
  - exact S2.
  - rewrite K1, K2, K3, K4, K5 in *. fold rp in Q0, Q1, PTS. pose proof PI_3. pose proof PI_4.
    assert (HP : 2 * PI / IZR n = 4 * pia) by (unfold pia; field; lra). assert (RP : 9 / 2 <= rp) by (unfold rp; lra).
    assert (TOP : forall u, 0 <= u <= 1 -> rad2 (n_point t u) <= (rp + 1) * (rp + 1)).
    { intros u U. rewrite <- (rad2_circle (rp + 1) pa), <- Q1. destruct (Req_dec u 1) as [->|NE]; [lra|]. left. apply UPS; lra. }
    assert (OW : outward t (2 * PI / IZR n)).
    { split; [rewrite HP; lra|exact UPS|]. rewrite HP. intros u U. destruct (PTS u U) as [(x & X & EX)|(x & X & EX)].
      - rewrite lower_half in EX by lra. exists (rp * cos x), (- pia). assert (0 < cos x) by (apply cos_gt_0; lra). split; [apply Rmult_lt_0_compat; lra|]. split; [lra|].
        rewrite EX. split; reflexivity.
      - pose proof (TOP u U) as B. destruct (cd_low n N x ltac:(lra)) as (Y & XX).
        { fold rp pia. rewrite <- EX. eapply Rle_lt_trans; [exact B|]. apply Rmult_le_0_lt_compat; lra. }
        fold rp pia in Y, XX. destruct (polar_right _ XX) as (r & a & R & AA & (PX & PY)). rewrite EX. exists r, a. split; [exact R|]. split; [|split; assumption].
        assert (A0 : a < 0). { apply Rnot_le_lt. intros G. assert (0 <= r * sin a) by (apply Rmult_le_pos; [lra|apply sin_ge_0; lra]). lra. }
        split; [|exact A0]. apply Rnot_le_lt. intros G.
        assert (S : 0 <= r * sin (a + pia)).
        { rewrite sin_plus. replace (r * (sin a * cos pia + cos a * sin pia)) with (r * sin a * cos pia + r * cos a * sin pia) by ring. rewrite <- PX, <- PY.
          pose proof (upper_half rp pia x ltac:(lra)) as K. cbv zeta in K. rewrite K. cbn [vx vy]. pose proof (sc1 pia) as SC.
          set (aa := cos x * (1 + 2 * (sin x * sin x))). set (bb := 2 * (sin x * (sin x * sin x))).
          replace (rp * (bb * cos pia - aa * sin pia) * cos pia + rp * (aa * cos pia + bb * sin pia) * sin pia) with (rp * bb * (sin pia * sin pia + cos pia * cos pia)) by ring.
          replace (sin pia * sin pia + cos pia * cos pia) with 1 by (rewrite <- SC; ring). rewrite Rmult_1_r. apply Rmult_le_pos; [lra|]. unfold bb.
          assert (0 <= sin x) by (apply sin_ge_0; lra). assert (0 <= sin x * sin x) by (apply Rmult_le_pos; lra). assert (0 <= sin x * (sin x * sin x)) by (apply Rmult_le_pos; lra). lra. }
        assert (r * sin (a + pia) < 0); [|lra].
        assert (0 < r * sin (- (a + pia))); [apply Rmult_lt_0_compat; [exact R|apply sin_gt_0; lra]|]. rewrite sin_neg in *. lra. }
    destruct (C125_cycloid_gear sv fs top g n 0 t CG TD OW) as (p & EP & SO). exists t, p. split; [exact TD|]. split; [exact OW|]. split; [exact EP|]. split; [exact SO|].
    rewrite Q0, Q1. unfold axis_dist.
    change (sqrt (rad2 (circle_pt (rp - 6 / 5) (- pia))) = rp - 6 / 5 /\ sqrt (rad2 (circle_pt (rp + 1) pa)) = rp + 1). rewrite !rad2_circle, !sqrt_square by lra. split; reflexivity.
Qed.

(** ** Flanks with undercut relief *)
Lemma sag k w m : 0 < k -> 0 <= w <= m -> let f := fun x => atan (k * x) - x in 0 <= f w \/ f m <= f w.
Proof.
  intros K W f.
  assert (D : forall x, derivable_pt_lim f x (k / (1 + k * x * (k * x)) - 1)).
  { intros x. unfold f. apply (derivable_pt_lim_minus (fun x => atan (k * x)) id); [|apply derivable_pt_lim_id].
    replace (k / (1 + k * x * (k * x))) with (/ (1 + (k * x) ^ 2) * k) by (field; pose proof (Rle_0_sqr (k * x)) as Q; unfold Rsqr in Q; cbn [pow]; rewrite ?Rmult_1_r; lra).
    apply (derivable_pt_lim_comp (fun x => k * x) atan); [|apply derivable_pt_lim_atan].
    pose proof (derivable_pt_lim_scal id k x 1 (derivable_pt_lim_id x)) as Z. rewrite Rmult_1_r in Z. exact Z. }
  assert (F0 : f 0 = 0) by (unfold f; rewrite Rmult_0_r, atan_0; ring).
  destruct (Rle_dec 0 (f w)) as [G|G]; [left; exact G|right]. assert (W0 : 0 < w) by (destruct (Req_dec w 0) as [E|NE]; [rewrite E, F0 in G; lra|lra]).
  destruct (Req_dec w m) as [->|NE]; [lra|].
  destruct (MVT_cor2 f (fun x => k / (1 + k * x * (k * x)) - 1) 0 w W0 (fun x _ => D x)) as (x & EX & X). cbv beta in EX. rewrite F0, !Rminus_0_r in EX.
  destruct (MVT_cor2 f (fun x => k / (1 + k * x * (k * x)) - 1) w m ltac:(lra) (fun x _ => D x)) as (y & EY & Y). cbv beta in EY.
  assert (DX : k / (1 + k * x * (k * x)) - 1 < 0). { apply Rnot_le_lt. intros L. assert (0 <= (k / (1 + k * x * (k * x)) - 1) * w) by (apply Rmult_le_pos; lra). lra. }
  assert (KX : 0 <= k * x) by (apply Rmult_le_pos; lra). assert (KY : k * x <= k * y) by (apply Rmult_le_compat_l; lra).
  assert (Q : k * x * (k * x) <= k * y * (k * y)) by (apply Rmult_le_compat; lra). assert (0 <= k * x * (k * x)) by (apply Rmult_le_pos; lra).
  assert (DY : k / (1 + k * y * (k * y)) <= k / (1 + k * x * (k * x))) by (apply Rmult_le_compat_l; [lra|apply Rinv_le_contravar; lra]).
  assert ((1 - k / (1 + k * y * (k * y))) * (m - w) >= 0); [|lra]. apply Rle_ge, Rmult_le_pos; lra.
Qed.
(** The direction in which the corner of the rack is seen from the axis. *)
Lemma path_polar rp alpha pia hd w : 0 < rp -> 0 < rp - hd -> let low := lowest rp alpha pia hd in
  exists r, 0 < r /\ polar (corner_path rp alpha pia hd (low - w)) r (low + (atan (rp / (rp - hd) * w) - w)).
Proof.
  intros P D low. set (b := atan (rp / (rp - hd) * w)). pose proof (atan_bound (rp / (rp - hd) * w)) as B. fold b in B. assert (C : 0 < cos b) by (apply cos_gt_0; lra).
  exists ((rp - hd) / cos b). split; [apply Rdiv_lt_0_compat; assumption|].
  pose proof (tan_atan (rp / (rp - hd) * w)) as T. fold b in T. unfold tan in T.
  assert (E : rp * w = (rp - hd) / cos b * sin b). { replace ((rp - hd) / cos b * sin b) with ((rp - hd) * (sin b / cos b)) by (field; lra). rewrite T. field. lra. }
  assert (E2 : rp - hd = (rp - hd) / cos b * cos b) by (field; lra).
  assert (Y : - corner_side rp alpha pia hd - rp * (low - w) = rp * w) by (unfold low, lowest; field; lra).
  unfold polar, corner_path. rewrite Y. cbn [vx vy]. replace (low + (b - w)) with (low - w + b) by ring. set (r := (rp - hd) / cos b) in *. rewrite E, cos_plus, sin_plus.
  set (t := low - w). clearbody r b t. clear - E2. split; rewrite E2 at 1; ring.
Qed.

Lemma relief_outward rp alpha pia ha hd pitch tooth un post t : relieved rp alpha pia ha hd pitch -> relief_tooth rp alpha pia ha hd tooth un post ->
  hd < corner_side rp alpha pia hd ->
  (forall s, 0 <= s <= 1 -> (exists x, c_t1 un <= x <= lowest rp alpha pia hd /\ n_point t s = corner_path rp alpha pia hd x) \/
       exists r, rp * cos alpha < r <= rp + ha /\ n_point t s = flank_point rp alpha pia r) ->
  (forall s u, 0 <= s -> s < u -> u <= 1 -> rad2 (n_point t s) < rad2 (n_point t u)) -> outward t pitch.
Proof.
  intros RL RT HQ PTS UPS. destruct (rl_al _ _ _ _ _ _ RL) as (A & C & B & TA). pose proof (rl_rp _ _ _ _ _ _ RL) as P. pose proof (rl_pitch _ _ _ _ _ _ RL) as PI0.
  pose proof (rl_alpha _ _ _ _ _ _ RL) as A40. pose proof (rl_root _ _ _ _ _ _ RL) as RD. pose proof (rl_base _ _ _ _ _ _ RL) as BA. pose proof (rl_h _ _ _ _ _ _ RL) as HH.
  pose proof (rl_side _ _ _ _ _ _ RL) as SI. pose proof (rl_gap _ _ _ _ _ _ RL) as GA. pose proof (rl_land _ _ _ _ _ _ RL) as LAND.
  set (q := corner_side rp alpha pia hd) in *. set (low := lowest rp alpha pia hd) in *. pose proof PI_3. pose proof PI_4.
  assert (LOW : low = - (q / rp)) by reflexivity.
  assert (Q1 : 0 < q / rp < 1). { split; [apply Rdiv_lt_0_compat; lra|]. apply Rmult_lt_reg_r with rp; [exact P|]. replace (q / rp * rp) with q by (field; lra). lra. }
  assert (LB : - (pitch / 2) < low). { rewrite LOW. assert (q / rp < pitch / 2); [|lra]. apply Rmult_lt_reg_r with rp; [exact P|]. replace (q / rp * rp) with q by (field; lra). lra. }
  assert (FL : forall r, rp * cos alpha < r <= rp + ha -> 0 < r /\ - (pitch / 2) < flank_angle rp alpha pia r < 0).
  { intros r R. assert (R0 : 0 < r) by (assert (0 < rp * cos alpha) by (apply Rmult_lt_0_compat; lra); lra). split; [exact R0|]. split; [apply (rl_angle _ _ _ _ _ _ r RL R0)|].
    destruct (flank_angle_mono rp alpha pia r (rp + ha) P C R0 ltac:(lra)) as (M & _). lra. }
  destruct (pp_dom _ _ _ _ _ (rt_piece _ _ _ _ _ _ _ _ RT)) as (D1 & D2 & D3). pose proof (rt_past _ _ _ _ _ _ _ _ RT) as PA. fold low in PA.
  set (m := low - c_t1 un). set (f := fun x => atan (rp / (rp - hd) * x) - x).
  assert (K0 : 0 < rp / (rp - hd)) by (apply Rdiv_lt_0_compat; lra).
  assert (FB : forall w, 0 <= w -> - w <= f w < PI / 2 - w).
  { intros w W. unfold f. pose proof (atan_bound (rp / (rp - hd) * w)). assert (KW : 0 <= rp / (rp - hd) * w) by (apply Rmult_le_pos; lra).
    assert (0 <= atan (rp / (rp - hd) * w)); [|lra]. destruct (Req_dec (rp / (rp - hd) * w) 0) as [->|NE]; [rewrite atan_0; lra|]. rewrite <- atan_0. left. apply atan_increasing. lra. }
  assert (FM : - (pitch / 2) < low + f m).
  { destruct (path_polar rp alpha pia hd m P RD) as (r & R & PO). fold low in PO. fold (f m) in PO. replace (low - m) with (c_t1 un) in PO by (unfold m; ring).
    assert (EU : c_eval un 1 = corner_path rp alpha pia hd (c_t1 un)).
    { unfold c_eval. rewrite (pp_fun rp alpha pia hd un (rt_piece _ _ _ _ _ _ _ _ RT)). f_equal.
      pose proof (rt_piece _ _ _ _ _ _ _ _ RT) as PC. apply (C28_ends un (pp_fresh _ _ _ _ _ PC)); [rewrite (pp_ndiv _ _ _ _ _ PC); apply NDIV_2|apply (pp_table rp alpha pia hd P A40 ltac:(lra) un PC)]. }
    pose proof (rt_meet _ _ _ _ _ _ _ _ RT) as ME. pose proof (rt_joined _ _ _ _ _ _ _ _ RT) as JO. pose proof (rt_ne _ _ _ _ _ _ _ _ RT) as NE. pose proof (rt_flank _ _ _ _ _ _ _ _ RT) as FLK. pose proof (rt_post _ _ _ _ _ _ _ _ RT) as RI.
    destruct post as [|c post']; [contradiction|]. cbn [joined] in JO. destruct JO as (JE & _). inversion RI as [|? ? RC _]; subst.
    destruct (FLK c (s2t c 0) (or_introl eq_refl) (rising_dom rad2 c 0 RC ltac:(lra))) as ((r' & R' & ER) & _).
    change (c_fun c (s2t c 0)) with (c_eval c 0) in ER. rewrite <- JE in ER. rewrite ER in ME. unfold flank_point in ME. rewrite rad2_circle in ME.
    assert (0 < rp * cos alpha) by (apply Rmult_lt_0_compat; lra). assert (0 < r') by lra.
    assert (RB : rp * cos alpha < r' <= rp + ha).
    { split; apply Rnot_lt_le || apply Rnot_le_lt; intros G; [assert (r' * r' <= rp * cos alpha * (rp * cos alpha)) by (apply Rmult_le_compat; lra)|assert ((rp + ha) * (rp + ha) <= r' * r') by (apply Rmult_le_compat; lra)]; lra. }
    destruct (FL r' RB) as (_ & FA). rewrite EU in ER. rewrite ER in PO.
    assert (PO' : polar (flank_point rp alpha pia r') r' (flank_angle rp alpha pia r')) by (split; reflexivity).
    pose proof (FB m ltac:(unfold m; lra)) as FBm. rewrite <- (polar_ang _ _ _ PO R), (polar_ang _ _ _ PO'); unfold m in *; lra. }
  split; [exact PI0|exact UPS|]. intros s S. destruct (PTS s S) as [(x & X & E)|(r & R & E)]; rewrite E.
  - destruct (path_polar rp alpha pia hd (low - x) P RD) as (r & R & PO). fold low in PO. replace (low - (low - x)) with x in PO by ring. change (atan (rp / (rp - hd) * (low - x)) - (low - x)) with (f (low - x)) in PO.
    exists r, (low + f (low - x)). split; [exact R|]. split; [|exact PO].
    assert (L1 : - (pitch / 2) < low + f (low - x)) .
    { pose proof (sag (rp / (rp - hd)) (low - x) m K0 ltac:(unfold m; lra)) as G. change (0 <= f (low - x) \/ f m <= f (low - x)) in G. clearbody f. destruct G; lra. }
    split; [exact L1|]. pose proof (path_below rp alpha pia hd P A40 ltac:(lra) x ltac:(lra) HQ) as VY. destruct PO as (_ & PY). rewrite PY in VY.
    pose proof (FB (low - x) ltac:(lra)) as FBx. apply Rnot_le_lt. intros G. assert (0 <= r * sin (low + f (low - x))) by (apply Rmult_le_pos; [lra|apply sin_ge_0; lra]). lra.
  - destruct (FL r R) as (R0 & FA). exists r, (flank_angle rp alpha pia r). split; [exact R0|]. split; [exact FA|]. split; reflexivity.
Qed.

(** Gears with undercut relief, without fillets: C121_involute for the same flank. *)
Theorem C125_relief sv fs ts g n z : cyl_gear g n -> relief_gear sv fs ts g n z ->
  let k := ig_core g in let rp := IZR n / 2 in let pitch := 2 * PI / IZR n in
  let phi := flank_angle rp (k_alpha k) (ig_pia g z) in let low := lowest rp (k_alpha k) (ig_pia g z) (k_hd k) in
  k_hd k < corner_side rp (k_alpha k) (ig_pia g z) (k_hd k) ->
  / 10000000000 < 2 * (rp + k_ha k) * sin (- phi (rp + k_ha k)) ->
  / 10000000000 < 2 * (rp - k_hd k) * sin (pitch / 2 + low) ->
  DELTA / 100 <= 2 * (rp - k_hd k) * sin (PI / IZR n) ->
  exists t p, toothed sv fs ts g n z t /\ outward t pitch /\ n_point t 0 = circle_pt (rp - k_hd k) low /\ n_point t 1 = circle_pt (rp + k_ha k) (phi (rp + k_ha k)) /\
    ig_profile sv fs ts g z = Ok p /\ simple_outline k p z n t.
Proof.
  intros CG RG k rp pitch phi low HQ TW RW AP.
  destruct RG as [U T0 R0 RL S T RF CUT TRU]. fold k rp in RL, S, T, RF, CUT, TRU. fold pitch in RL, RF, CUT.
  destruct (C121_tooth ts _ _ _ _ _ _ RL S T RF) as (tooth & un & post & E & RT & cf & EPF & _).
  assert (EG : ig_tooth ts g z = Ok tooth).
  { rewrite <- E. unfold ig_tooth. fold k. rewrite U. unfold k. rewrite (cg_cone _ _ CG), (cg_rp _ _ CG), (cg_teeth _ _ CG). destruct (Req_EM_T 0 0); [|contradiction]. reflexivity. }
  destruct (CUT tooth EG) as (TF & RF2).
  destruct (relief_flank sv rp (k_alpha k) (ig_pia g z) (k_ha k) (k_hd k) (k_ho k) rp pitch tooth un post RL RT TF RF2) as (t & TR & FO & NO & FR & PF & P0 & P1 & PTS & UPW & LEN).
  assert (PP : 0 < rp) by apply (rl_rp _ _ _ _ _ _ RL). pose proof (rl_root _ _ _ _ _ _ RL) as RD. pose proof (rl_h _ _ _ _ _ _ RL) as HH.
  assert (TD : toothed sv fs ts g n z t).
  { split.
  - eexists. split; [exact FO|rewrite (cg_teeth _ _ CG); exact NO|]. exists tooth, tooth. cbv zeta. fold k. rewrite (cg_teeth _ _ CG), T0, R0. fold pitch.
    split; [exact EG|]. split; [|split; [|split; [exact FR|exact TR]]].
    + replace (k_cone k) with 0 by (symmetry; apply (cg_cone _ _ CG)). replace (k_rp k) with rp by (symmetry; apply (cg_rp _ _ CG)). symmetry.
      destruct (Rlt_le_dec 0 (ip_tip_trunc (ig_in g))) as [R1|R1]; [|apply C90_off, R1]. destruct (TRU R1) as (HS & PS & LE & SO).
      destruct (rl_al _ _ _ _ _ _ RL) as (A & C & B & TA).
      destruct (sharp_exists rp (k_alpha k) (ig_pia g z) PP A ltac:(lra)) as (rs & RS & E0).
      apply tip_kept; try lra. intros r CR. rewrite (relief_crossing fs _ _ _ _ _ _ tooth un post rs r RL RT PS HS (SO tooth EG) ltac:(lra) E0 CR).
      destruct (Rle_dec (rp + k_ha k + ip_tip_trunc (ig_in g)) rs) as [G|G]; [exact G|exfalso].
      destruct (flank_angle_mono rp (k_alpha k) (ig_pia g z) rs (rp + k_ha k + ip_tip_trunc (ig_in g)) PP C ltac:(lra) ltac:(lra)) as (_ & M). specialize (M ltac:(lra) ltac:(lra)). lra.
    + unfold filleted_flank. destruct (Rlt_dec 0 0); [lra|reflexivity].
  - exact PF.
  - unfold root_gap. rewrite P0. eapply Rlt_le_trans; [exact RW|]. apply gap_width.
  - unfold tip_gap. rewrite P1. eapply Rlt_le_trans; [exact TW|]. apply land_width.
  - rewrite P0. replace (axis_dist (circle_pt (rp - k_hd k) _)) with (rp - k_hd k); [exact AP|].
    unfold axis_dist. change (rp - k_hd k = sqrt (rad2 (circle_pt (rp - k_hd k) low))). rewrite rad2_circle, sqrt_square; lra. }
  pose proof (relief_outward _ _ _ _ _ _ _ _ _ t RL RT HQ PTS UPW) as OW.
  destruct (C125_gear sv fs ts g n z t CG TD OW) as (p & EP & SO). exists t, p. split; [exact TD|]. split; [exact OW|]. split; [exact P0|]. split; [exact P1|]. split; [exact EP|exact SO].
Qed.

(** Spur gears with the default parameters and ten to thirty-nine teeth, see C121_default. *)
Theorem C125_default n height center angle module zanchor sv fs ts : (10 <= n <= 39)%Z ->
  let g := default_spur n height center angle module zanchor in small_searches n height center angle module zanchor sv fs ts n ->
  exists t p, ig_profile sv fs ts g 0 = Ok p /\ simple_outline (ig_core g) p 0 n t /\
    axis_dist (n_point t 0) = IZR n / 2 - 6 / 5 /\ axis_dist (n_point t 1) = IZR n / 2 + 1.
Proof.
  intros N g SS. destruct (sm_gear n height center angle module zanchor N sv fs ts SS) as (RG & B1 & B2 & B3). fold g in RG, B1, B2, B3.
  destruct (sm_k n height center angle module zanchor N) as (EA & ED & EAL & EP & _). fold g in EA, ED, EAL, EP. pose proof (sm_n n N) as NN.
  pose proof (sm_cyl n height center angle module zanchor N) as CG. fold g in CG.
  destruct (sm_al n N) as (_ & _ & _ & _ & _ & Q). destruct tan20 as ((T0 & T1) & _). pose proof PI_31.
  destruct (C125_relief sv fs ts g n 0 CG RG) as (t & p & TD & OW & P0 & P1 & EPR & SO); try assumption.
  - rewrite ED, EAL, EP, Q. lra.
  - exists t, p. split; [exact EPR|]. split; [exact SO|]. rewrite P0, P1, EA, ED. unfold axis_dist.
    match goal with |- sqrt ?a = _ /\ sqrt ?b = _ => match type of P0 with _ = ?x => change a with (rad2 (circle_pt (IZR n / 2 - 6 / 5) (lowest (IZR n / 2) (k_alpha (ig_core g)) (ig_pia g 0) (6 / 5)))) end end.
    match goal with |- _ /\ sqrt ?b = _ => change b with (rad2 (circle_pt (IZR n / 2 + 1) (flank_angle (IZR n / 2) (k_alpha (ig_core g)) (ig_pia g 0) (IZR n / 2 + 1)))) end.
    rewrite !rad2_circle, !sqrt_square by lra. split; reflexivity.
Qed.

(** ** Examples *)
(** A gear with thirty teeth and undercut, made with the default parameters. *)
Example C125_default_example : exists sv fs ts, small_searches 30 1 ORIGIN 0 1 0 sv fs ts 30 /\ exists t p,
  ig_profile sv fs ts (default_spur 30 1 ORIGIN 0 1 0) 0 = Ok p /\ simple_outline (ig_core (default_spur 30 1 ORIGIN 0 1 0)) p 0 30 t /\ axis_dist (n_point t 1) = 16.
Proof.
  destruct (C121_default_solvable 30 1 ORIGIN 0 1 0 ltac:(lia)) as (sv & fs & ts & SS). exists sv, fs, ts. split; [exact SS|].
  destruct (C125_default 30 1 ORIGIN 0 1 0 sv fs ts ltac:(lia) SS) as (t & p & EP & SO & _ & A1). exists t, p. split; [exact EP|]. split; [exact SO|]. rewrite A1. field.
Qed.
Example C125_relief_example : exists sv fs ts, let g := default_spur 12 1 ORIGIN 0 1 0 in relief_gear sv fs ts g 12 0 /\
  k_hd (ig_core g) < corner_side (12 / 2) (k_alpha (ig_core g)) (ig_pia g 0) (k_hd (ig_core g)) /\
  exists t p, toothed sv fs ts g 12 0 t /\ ig_profile sv fs ts g 0 = Ok p /\ simple_outline (ig_core g) p 0 12 t.
Proof.
  assert (N : (10 <= 12 <= 39)%Z) by lia.
  destruct (C121_default_solvable 12 1 ORIGIN 0 1 0 N) as (sv & fs & ts & SS). exists sv, fs, ts. intros g.
  destruct (sm_gear 12 1 ORIGIN 0 1 0 N sv fs ts SS) as (RG & B1 & B2 & B3). fold g in RG, B1, B2, B3.
  destruct (sm_k 12 1 ORIGIN 0 1 0 N) as (EA & ED & EAL & EP & _). fold g in EA, ED, EAL, EP.
  pose proof (sm_cyl 12 1 ORIGIN 0 1 0 N) as CG. fold g in CG. destruct (sm_al 12 N) as (_ & _ & _ & _ & _ & Q). destruct tan20 as ((T0 & T1) & _). pose proof PI_31.
  split; [exact RG|]. assert (HQ : k_hd (ig_core g) < corner_side (12 / 2) (k_alpha (ig_core g)) (ig_pia g 0) (k_hd (ig_core g))) by (rewrite ED, EAL, EP, Q; lra).
  split; [exact HQ|]. destruct (C125_relief sv fs ts g 12 0 CG RG HQ B1 B2 B3) as (t & p & TD & _ & _ & _ & E & SO). exists t, p. split; [exact TD|]. split; [exact E|exact SO].
Qed.
(** A cycloid gear with twelve teeth. *)
Example C125_cycloid_example : exists sv fs top, cyc_searches 12 10 0 ORIGIN 0 2 false 0 sv fs top /\ exists t p,
  cg_profile sv fs top ex_cyc 0 = Ok p /\ simple_outline (cg_core ex_cyc) p 0 12 t /\ axis_dist (n_point t 0) = 24 / 5.
Proof.
  destruct (C123_solvable 12 10 0 ORIGIN 0 2 false 0 ltac:(lia)) as (sv & fs & top & SS). exists sv, fs, top. split; [exact SS|].
  destruct (C125_cycloid 12 10 0 ORIGIN 0 2 false 0 sv fs top ltac:(lia) SS) as (t & p & _ & _ & EP & SO & A0 & _). exists t, p. split; [exact EP|]. split; [exact SO|]. rewrite A0. field.
Qed.

Lemma ex_relief_teeth : exists sv fs ts t, let g := default_spur 12 1 ORIGIN 0 1 0 in cyl_gear g 12 /\ toothed sv fs ts g 12 0 t /\ outward t (2 * PI / 12) /\
  rad2 (n_point t 0) = 576 / 25 /\ rad2 (n_point t 1) = 49.
Proof.
  assert (N : (10 <= 12 <= 39)%Z) by lia.
  destruct (C121_default_solvable 12 1 ORIGIN 0 1 0 N) as (sv & fs & ts & SS). exists sv, fs, ts.
  destruct (sm_gear 12 1 ORIGIN 0 1 0 N sv fs ts SS) as (RG & B1 & B2 & B3). set (g := default_spur 12 1 ORIGIN 0 1 0) in *.
  destruct (sm_k 12 1 ORIGIN 0 1 0 N) as (EA & ED & EAL & EP & _). fold g in EA, ED, EAL, EP.
  pose proof (sm_cyl 12 1 ORIGIN 0 1 0 N) as CG. fold g in CG. destruct (sm_al 12 N) as (_ & _ & _ & _ & _ & Q). destruct tan20 as ((T0 & T1) & _). pose proof PI_31.
  assert (HQ : k_hd (ig_core g) < corner_side (12 / 2) (k_alpha (ig_core g)) (ig_pia g 0) (k_hd (ig_core g))) by (rewrite ED, EAL, EP, Q; lra).
  destruct (C125_relief sv fs ts g 12 0 CG RG HQ B1 B2 B3) as (t & p & TD & OW & P0 & P1 & _ & _). exists t. split; [exact CG|]. split; [exact TD|]. split; [exact OW|].
  rewrite P0, P1, EA, ED, !rad2_circle. split; field.
Qed.
Example C125_gear_example : exists sv fs ts t p, let g := default_spur 12 1 ORIGIN 0 1 0 in toothed sv fs ts g 12 0 t /\ outward t (2 * PI / 12) /\
  ig_profile sv fs ts g 0 = Ok p /\ (exists c, ig_boundary sv fs ts g (PyInt 12) 0 false = Ok c) /\ apart (ig_core g) p 0 12 /\
  forall x, 576 / 25 <= rad2 (boundary_fun p (2 * PI / 12) 12 x) <= 49.
Proof.
  destruct ex_relief_teeth as (sv & fs & ts & t & CG & TD & OW & R0 & R1). exists sv, fs, ts, t. destruct (C125_gear sv fs ts _ 12 0 t CG TD OW) as (p & EP & [_ BD AP (c & EC & _)]).
  exists p. split; [exact TD|]. split; [exact OW|]. split; [exact EP|]. split; [exists c; unfold ig_boundary; rewrite EP; exact EC|]. split.
  - apply AP.
    + rewrite sm_core by lia. cbn. lra.
    + rewrite sm_core by lia. cbn. apply rotation_I.
  - rewrite R0, R1 in BD. exact BD.
Qed.
Example C125_simple_example : exists sv tooth rc t p, trim_flank sv tooth rc 0 0 (2 * PI / 12) = Ok t /\ outward t (2 * PI / 12) /\
  trim_reference_profile sv tooth rc 0 0 (2 * PI / 12) = Ok p /\
  forall x y, 0 <= x < 1 -> 0 <= y < 1 -> boundary_fun p (2 * PI / 12) 12 x = boundary_fun p (2 * PI / 12) 12 y -> x = y.
Proof.
  destruct ex_relief_teeth as (sv & fs & ts & t & CG & [(rc & [FO NO (tooth & f & ET & ERC & EF & FR & TR)]) FT RG TG _] & OW & _). cbv zeta in *. rewrite (cg_teeth _ _ CG) in *.
  rewrite sm_normal in TR by lia. cbn [ip_tip_fillet ip_root_fillet] in TR. exists sv, f, rc, t.
  pose proof (trim_leaves_fresh _ _ _ _ _ _ _ FR TR) as FL. destruct (assemble_ok t rc (2 * PI / 12) FO FL NO) as (p & EP & _). exists p.
  assert (E0 : trim_reference_profile sv f rc 0 0 (2 * PI / 12) = Ok p) by (unfold trim_reference_profile; rewrite TR; exact EP).
  split; [exact TR|]. split; [exact OW|]. split; [exact E0|]. apply (C125_simple sv f rc 0 0 12 t p ltac:(lia) FR TR FO OW RG TG E0).
Qed.
Example C125_cycloid_gear_example : exists sv fs top t p, cyc_toothed sv fs top ex_cyc 12 0 t /\ outward t (2 * PI / 12) /\ cg_profile sv fs top ex_cyc 0 = Ok p /\
  apart (cg_core ex_cyc) p 0 12.
Proof.
  destruct (C123_solvable 12 10 0 ORIGIN 0 2 false 0 ltac:(lia)) as (sv & fs & top & SS). exists sv, fs, top.
  destruct (C125_cycloid 12 10 0 ORIGIN 0 2 false 0 sv fs top ltac:(lia) SS) as (t & _ & TD & OW & _). exists t.
  destruct (C125_cycloid_gear sv fs top ex_cyc 12 0 t (cd_cyc 12 10 0 ORIGIN 0 2 false 0 ltac:(lia)) TD OW) as (p & EP & [_ _ AP _]).
  exists p. split; [exact TD|]. split; [exact OW|]. split; [exact EP|]. apply AP.
  - cbn. lra.
  - cbn. apply rotation_I.
Qed.
