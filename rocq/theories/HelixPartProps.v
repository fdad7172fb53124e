(** C122: the parts of helical gears with undercut relief, and of every HelicalGear with default parameters. *)
From Coq Require Import Nsatz Reals Ranalysis5 ZArith Lra Lia List Bool Arith Permutation.
From Verif Require Import Num Vec Coords CoordsProps Transform TransformProps Params Bezier BezierLem BezierProps Interp Curve CurveLem CurveProps
  ArcLem ArcProps Chain ChainLem ChainProps NurbsProps Gen GenProps GearMath GearLem MeshDistProps Tooth Wrapper Info InfoProps HelicalProps RefLines RefLinesProps Profile ProfileLem ProfileProps
  Build BuildProps Convert ConvertProps NurbConvProps Fillet FilletProps FlankProps ReduceProps Teeth RackConjProps UndercutProps RisingLem Report ReportProps MeshProps SpurProps RadiiProps Faces FacesProps Part PartProps
  ClimbLem DefaultProps ReliefProps FitProps.
Import ListNotations.
Open Scope R_scope.

(** ** HelicalGear with the default parameters, gggears_wrapper.py 1074-1115 *)
Definition default_helical_param (n : Z) (height helix : R) (center : vec) (angle module zanchor : R) : iparam :=
  mkIP (IZR n) height helix 0 center angle module true 0 0 (1 / 10) 0 1 (6 / 5) (20 * PI / 180) 0 0 false zanchor.
Definition default_helical (n : Z) (height helix : R) (herringbone : bool) (center : vec) (angle module zanchor : R) : hgear :=
  helical_new (default_helical_param n height helix center angle module zanchor) herringbone.

(** The surfaces of the part are fitted: the fit of every segment has converged (see C115). *)
Definition fits_converged sv fs ts mid optC (optS : arr3 -> arr1) (h : hgear) : Prop :=
  let nv := default_layers h in let tw := n_z_tweens nv 3 in
  let chains := chain_at optC 4 3 (section_at sv fs ts mid h) (section_trf h) in
  forall hs, In hs (z_stacks (k_zvals (ig_core (h_gear h))) tw) -> let st := map chains hs in
    converged (stack_target st) tw (length (nb_points (chains 0))) nv (optS (stack_target st)).

Lemma tan20_up : tan (20 * PI / 180) < 37 / 100.
Proof.
  destruct cos20 as ((C0 & C1) & S0 & S1). set (a := 20 * PI / 180) in *. pose proof (sc1 a) as S.
  assert (9385 / 10000 * (9385 / 10000) < cos a * cos a) by (apply Rmult_le_0_lt_compat; lra).
  assert (S2 : sin a < 3453 / 10000) by (apply sq_lt; lra).
  unfold tan. apply Rmult_lt_reg_r with (cos a); try lra; replace (sin a / cos a * cos a) with (sin a) by (field; lra). lra.
Qed.

Section Helix.
  Variables (n : Z) (height helix : R) (hb : bool) (center : vec) (angle module zanchor : R).
  Hypothesis N : (10 <= n)%Z.
  Hypothesis B : 1 / 2 <= cos helix.
  Let h := default_helical n height helix hb center angle module zanchor.
  Let g := h_gear h.
  Let rp := IZR n / 2.
  Let c := cos helix.
  Let T := tan (20 * PI / 180).
  Let al := atan (T / c).
  Let pia := PI / (2 * IZR n).
  Let q := corner_side rp al pia (6 / 5 * c).
  Let w := sqrt (c * c + T * T).

  Lemma hl_n : 10 <= IZR n. Proof. apply IZR_le. lia. Qed.
  Lemma hl_c : 1 / 2 <= c <= 1. Proof. split; [exact B|apply COS_bound]. Qed.
  Lemma hl_T : 36 / 100 < T < 37 / 100. Proof. destruct tan20 as ((T0 & _) & _). split; [exact T0|exact tan20_up]. Qed.
  Lemma hl_in : ig_in g = mkIP (IZR n) height helix 0 center angle (module / c) true 0 0 (1 / 10) (0 * c) (1 * c) (6 / 5 * c) al 0 0 false zanchor.
  Proof. pose proof hl_n. unfold g, h, default_helical. rewrite helical_in, helical_normalise by (cbn; lra). reflexivity. Qed.
  Lemma hl_k : k_ha (ig_core g) = c /\ k_hd (ig_core g) = 6 / 5 * c /\ k_alpha (ig_core g) = al /\ (forall z, ig_pia g z = pia).
  Proof.
    pose proof hl_n. pose proof hl_in as EI. unfold g, h, default_helical in *. destruct (helical_core (default_helical_param n height helix center angle module zanchor) hb) as (zs & E).
    assert (EK : ig_core (ig_new (helical_param (default_helical_param n height helix center angle module zanchor) false)) =
      calc_params (helical_param (default_helical_param n height helix center angle module zanchor) false)).
    { unfold ig_new. rewrite helical_normalise by (cbn; lra). reflexivity. }
    rewrite EK in E. split; [rewrite E; cbn; fold c; ring|]. split; [rewrite E; cbn; fold c; field|]. split; [rewrite E; reflexivity|].
    intros z. unfold ig_pia, crowning. rewrite EI, E. cbn [calc_params with_zvals k_tooth_angle ip_crown ip_height k_rp ip_teeth ip_shift ip_alpha ip_backlash helical_param default_helical_param].
    unfold pia. unfold Rdiv. rewrite !Rmult_0_l, !Rmult_0_r, !Rmult_0_l. field. lra.
  Qed.
  Lemma hl_cyl : cyl_gear g n.
  Proof. apply (C116_kinds (default_helical_param n height helix center angle module zanchor) n); try reflexivity; lia. Qed.

  (** The transverse pressure angle. *)
  Lemma hl_al : 0 < al < PI / 2 /\ tan al = T / c /\ cos al = c / w /\ sin al = T / w /\ 0 < w /\ w * w = c * c + T * T.
  Proof.
    destruct hl_c as (C0 & C1). destruct hl_T as (T0 & T1). assert (Q : 0 < T / c) by (apply Rdiv_lt_0_compat; lra).
    assert (CC : 0 < c * c) by (apply Rmult_lt_0_compat; lra). assert (TT : 0 < T * T) by (apply Rmult_lt_0_compat; lra).
    assert (W : 0 < w) by (apply sqrt_lt_R0; lra). assert (WW : w * w = c * c + T * T) by (apply sqrt_sqrt; lra).
    destruct (polar_atan c T ltac:(lra)) as (PC & PS). fold w al in PC, PS.
    split; [|split; [apply tan_atan|split; [|split; [|split; assumption]]]].
    - unfold al. split; [rewrite <- atan_0; apply atan_increasing, Q|apply atan_bound].
    - apply Rmult_eq_reg_r with w; [|lra]. unfold Rdiv. rewrite (Rmult_assoc c), Rinv_l, Rmult_1_r by lra. lra.
    - apply Rmult_eq_reg_r with w; [|lra]. unfold Rdiv. rewrite (Rmult_assoc T), Rinv_l, Rmult_1_r by lra. lra.
  Qed.
  Lemma hl_inv : 0 < inv al < 15 / 100.
  Proof.
    destruct hl_al as (A & TA & CA & SA & W & WW). destruct hl_c as (C0 & C1). destruct hl_T as (T0 & T1). pose proof (inv_strict 0 al ltac:(lra) ltac:(lra) ltac:(lra)) as K. rewrite inv_0 in K.
    split; [exact K|]. pose proof (inv_diff 0 al ltac:(lra) ltac:(lra) ltac:(lra)) as D. rewrite inv_0, cos_0, Rinv_1 in D.
    assert (WB : w < 125 / 100 * c).
    { apply sq_lt; [exact W|lra|]. rewrite WW. assert (T * T < 37 / 100 * (37 / 100)) by (apply Rmult_le_0_lt_compat; lra). assert (1 / 2 * (1 / 2) <= c * c) by (apply Rmult_le_compat; lra). lra. }
    assert (E : sin al * (/ cos al - 1) = T / c * ((w - c) / w)) by (rewrite SA, CA; field; lra). rewrite E in D.
    assert (Q1 : T / c <= 74 / 100) by (apply Rmult_le_reg_r with c; [lra|]; unfold Rdiv; rewrite Rmult_assoc, Rinv_l by lra; lra).
    assert (Q0 : 0 < T / c) by (apply Rdiv_lt_0_compat; lra).
    assert (CW : c < w). { apply sq_lt; [lra|exact W|]. rewrite WW. assert (0 < T * T) by (apply Rmult_lt_0_compat; lra). lra. }
    assert (Q2 : (w - c) / w <= 2 / 10). { apply Rmult_le_reg_r with w; [exact W|]. unfold Rdiv at 1. rewrite Rmult_assoc, Rinv_l by lra. lra. }
    assert (Q3 : 0 <= (w - c) / w) by (apply Rmult_le_pos; [lra|left; apply Rinv_0_lt_compat, W]).
    assert (T / c * ((w - c) / w) <= 74 / 100 * (2 / 10)) by (apply Rmult_le_compat; lra). lra.
  Qed.
  Lemma hl_pia : pia * IZR n = PI / 2 /\ 0 < pia <= 1 / 5 /\ q = PI / 4 + 6 / 5 * T.
  Proof.
    pose proof hl_n. pose proof PI_31. pose proof PI_4. destruct hl_al as (A & TA & _). destruct hl_c as (C0 & C1).
    assert (EP : pia * IZR n = PI / 2) by (unfold pia; field; lra). split; [exact EP|]. split.
    - assert (0 < pia) by (unfold pia; apply Rdiv_lt_0_compat; lra). split; [assumption|].
      assert (pia * 10 <= pia * IZR n) by (apply Rmult_le_compat_l; lra). lra.
    - unfold q, corner_side, rp. rewrite TA. replace (IZR n / 2 * pia) with (pia * IZR n / 2) by field. rewrite EP. field. lra.
  Qed.

  (** The pressure angle at the radius [r] outside the base circle. *)
  Lemma hl_angle r : rp * cos al <= r -> exists a, 0 <= a < PI / 2 /\ cos a = rp * cos al / r /\ flank_angle rp al pia r = inv a - inv al - pia.
  Proof.
    intros H. destruct hl_al as (A & _). pose proof hl_n. assert (C : 0 < cos al) by (apply cos_gt_0; lra).
    assert (P : 0 < rp) by (unfold rp; lra). assert (BB : 0 < rp * cos al) by (apply Rmult_lt_0_compat; assumption).
    destruct (pressure_range rp al r P C ltac:(lra)) as (AA & CA). exists (acos (Rmin 1 (rp * cos al / r))). split; [exact AA|]. split; [|reflexivity].
    rewrite CA. apply Rmin_right. apply Rmult_le_reg_r with r; [lra|]. unfold Rdiv. rewrite Rmult_assoc, Rinv_l by lra. lra.
  Qed.

  (** The thickness of the tooth, [x] above the pitch circle. *)
  Lemma hl_tip x k : c <= x <= c + 1 / 10 -> 0 < k -> x / c * (x / c) * (37 / 100 * (37 / 100)) + x * x * (1 - 5 / (5 + x) * (5 / (5 + x))) <= k * k ->
    flank_angle rp al pia (rp + x) <= - ((155 / 100 - 2 * k) / IZR n).
  Proof.
    intros X K0 KB. pose proof hl_n as NN. destruct hl_al as (A & TA & CA & SA & W & WW). destruct hl_c as (C0 & C1). destruct hl_T as (T0 & T1). destruct hl_pia as (P1 & P2 & _). pose proof PI_31.
    assert (P : 5 <= rp) by (unfold rp; lra). assert (C : 0 < cos al) by (apply cos_gt_0; lra). assert (CL : cos al <= 1) by apply COS_bound.
    assert (BA : rp * cos al <= rp * 1) by (apply Rmult_le_compat_l; lra).
    destruct (hl_angle (rp + x) ltac:(lra)) as (b & BB & CB & ->).
    assert (L : al <= b).
    { destruct (Rle_dec al b) as [G|G]; [exact G|exfalso]. assert (K : cos al < cos b) by (apply cos_decreasing_1; lra). rewrite CB in K.
      apply (Rmult_lt_compat_r (rp + x)) in K; [|lra]. unfold Rdiv in K. rewrite (Rmult_assoc (rp * cos al)), Rinv_l, Rmult_1_r in K by lra.
      assert (0 <= cos al * x) by (apply Rmult_le_pos; lra). lra. }
    pose proof (inv_diff al b ltac:(lra) L ltac:(lra)) as D.
    assert (ED : / cos b - / cos al = x / (rp * cos al)). { rewrite CB. field. lra. }
    rewrite ED in D. assert (SB : 0 <= sin b) by (apply sin_ge_0; lra).
    set (f := rp / (rp + x)). assert (F0 : 5 / (5 + x) <= f).
    { unfold f. apply Rmult_le_reg_r with ((5 + x) * (rp + x)); [apply Rmult_lt_0_compat; lra|].
      replace (5 / (5 + x) * ((5 + x) * (rp + x))) with (5 * (rp + x)) by (field; lra). replace (rp / (rp + x) * ((5 + x) * (rp + x))) with (rp * (5 + x)) by (field; lra).
      assert (5 * x <= rp * x) by (apply Rmult_le_compat_r; lra). lra. }
    assert (F5 : 0 < 5 / (5 + x)) by (apply Rdiv_lt_0_compat; lra). assert (FF : 5 / (5 + x) * (5 / (5 + x)) <= f * f) by (apply Rmult_le_compat; lra).
    assert (CW : w * cos b = c * f). { rewrite CB, CA. unfold f. field. lra. }
    assert (SW : w * sin b * (w * sin b) = T * T + c * c * (1 - f * f)).
    { pose proof (sc1 b) as S. replace (w * sin b * (w * sin b)) with (w * w * (sin b * sin b + cos b * cos b) - w * cos b * (w * cos b)) by ring. rewrite S, WW, CW. ring. }
    assert (XC : x / c * c = x) by (field; lra). assert (X0 : 0 < x / c) by (apply Rdiv_lt_0_compat; lra).
    assert (KK : w * sin b * (x / c) <= k).
    { apply Rsqr_incr_0; [|apply Rmult_le_pos; [apply Rmult_le_pos; lra|lra]|lra]. unfold Rsqr. eapply Rle_trans; [|exact KB].
      replace (w * sin b * (x / c) * (w * sin b * (x / c))) with (w * sin b * (w * sin b) * (x / c * (x / c))) by ring. rewrite SW.
      replace ((T * T + c * c * (1 - f * f)) * (x / c * (x / c))) with (x / c * (x / c) * (T * T) + (x / c * c) * (x / c * c) * (1 - f * f)) by ring. rewrite XC.
      apply Rplus_le_compat.
      - apply Rmult_le_compat_l; [apply Rmult_le_pos; lra|]. apply Rmult_le_compat; lra.
      - apply Rmult_le_compat_l; [apply Rmult_le_pos; lra|]. lra. }
    assert (D2 : inv b - inv al <= 2 * k / IZR n).
    { eapply Rle_trans; [exact D|]. apply Rmult_le_reg_r with (IZR n); [lra|]. replace (2 * k / IZR n * IZR n) with (2 * k) by (field; lra).
      replace (sin b * (x / (rp * cos al)) * IZR n) with (2 * (w * sin b * (x / c))) by (rewrite CA; unfold rp; field; lra). lra. }
    assert (P3 : 155 / 100 / IZR n <= pia). { apply Rmult_le_reg_r with (IZR n); [lra|]. replace (155 / 100 / IZR n * IZR n) with (155 / 100) by (field; lra). lra. }
    unfold Rdiv in *. lra.
  Qed.
  Lemma hl_land : flank_angle rp al pia (rp + c) <= - (219 / 1000 / IZR n) /\ flank_angle rp al pia (rp + (c + 1 / 10)) <= 0.
  Proof.
    pose proof hl_n as NN. destruct hl_c as (C0 & C1). assert (IN : 0 < / IZR n) by (apply Rinv_0_lt_compat; lra). split.
    - eapply Rle_trans; [apply (hl_tip c (6655 / 10000)); try lra|unfold Rdiv; lra]. replace (c / c) with 1 by (field; lra).
      assert (F : 5 / 6 <= 5 / (5 + c)) by (unfold Rdiv; apply Rmult_le_compat_l; [lra|apply Rinv_le_contravar; lra]).
      assert (5 / 6 * (5 / 6) <= 5 / (5 + c) * (5 / (5 + c))) by (apply Rmult_le_compat; lra).
      assert (G : 5 / (5 + c) <= 1) by (apply Rmult_le_reg_r with (5 + c); [lra|]; replace (5 / (5 + c) * (5 + c)) with 5 by (field; lra); lra).
      assert (5 / (5 + c) * (5 / (5 + c)) <= 1 * 1) by (apply Rmult_le_compat; lra).
      assert (c * c <= 1 * 1) by (apply Rmult_le_compat; lra). assert (0 <= c * c) by apply Rle_0_sqr.
      assert (c * c * (1 - 5 / (5 + c) * (5 / (5 + c))) <= 1 * (1 - 5 / 6 * (5 / 6))) by (apply Rmult_le_compat; lra). lra.
    - eapply Rle_trans; [apply (hl_tip (c + 1 / 10) (7709 / 10000)); try lra|unfold Rdiv; lra]. set (x := c + 1 / 10) in *. assert (X : 6 / 10 <= x <= 11 / 10) by (unfold x; lra).
      assert (F : 5 / (61 / 10) <= 5 / (5 + x)) by (unfold Rdiv; apply Rmult_le_compat_l; [lra|apply Rinv_le_contravar; lra]).
      assert (5 / (61 / 10) * (5 / (61 / 10)) <= 5 / (5 + x) * (5 / (5 + x))) by (apply Rmult_le_compat; lra).
      assert (G : 5 / (5 + x) <= 1) by (apply Rmult_le_reg_r with (5 + x); [lra|]; replace (5 / (5 + x) * (5 + x)) with 5 by (field; lra); lra).
      assert (5 / (5 + x) * (5 / (5 + x)) <= 1 * 1) by (apply Rmult_le_compat; lra).
      assert (x * x <= 11 / 10 * (11 / 10)) by (apply Rmult_le_compat; lra). assert (0 <= x * x) by apply Rle_0_sqr.
      assert (x * x * (1 - 5 / (5 + x) * (5 / (5 + x))) <= 11 / 10 * (11 / 10) * (1 - 5 / (61 / 10) * (5 / (61 / 10)))) by (apply Rmult_le_compat; lra).
      assert (XC : x / c <= 12 / 10) by (apply Rmult_le_reg_r with c; [lra|]; replace (x / c * c) with x by (field; lra); unfold x; lra). assert (0 < x / c) by (apply Rdiv_lt_0_compat; lra).
      assert (x / c * (x / c) <= 12 / 10 * (12 / 10)) by (apply Rmult_le_compat; lra). lra.
  Qed.

  Lemma hl_relieved : rp - 6 / 5 * c <= rp * cos al -> relieved rp al pia c (6 / 5 * c) (2 * PI / IZR n).
  Proof.
    intros BR. pose proof hl_n as NN. destruct hl_al as (A & TA & CA & SA & W & WW). destruct hl_c as (C0 & C1). destruct hl_T as (T0 & T1). destruct hl_pia as (P1 & P2 & Q). pose proof PI_31. pose proof PI_4. pose proof hl_inv as I.
    assert (IN : 0 < / IZR n) by (apply Rinv_0_lt_compat; lra). destruct hl_land as (L & _).
    assert (EP : 2 * PI / IZR n = 4 * pia) by (unfold pia; field; lra).
    assert (W2 : w <= 2). { left. apply sq_lt; try lra. assert (c * c <= 1 * 1) by (apply Rmult_le_compat; lra). assert (T * T <= 1 * 1) by (apply Rmult_le_compat; lra). lra. }
    split; fold q; try (unfold rp; lra); try lra.
    - split; [|lra]. pose proof (sin_lt_x al ltac:(lra)) as S. rewrite SA in S. assert (/ 40 <= T / w); [|lra].
      apply Rmult_le_reg_r with w; [exact W|]. replace (T / w * w) with T by (field; lra). lra.
    - replace (rp * (2 * PI / IZR n) / 2) with (PI / 2) by (unfold rp; field; lra). lra.
    - assert (q * q <= 15 / 10 * (15 / 10)) by (apply Rmult_le_compat; lra). assert (1 / 2 * (2 * rp - 2 / 10 * c) <= c * (2 * rp - 2 / 10 * c)) by (apply Rmult_le_compat_r; unfold rp; lra).
      unfold rp in *. lra.
  Qed.

  Lemma hl_sin x : 15 / 100 / IZR n <= x <= 1 -> 1 / 10 / IZR n <= sin x.
  Proof.
    pose proof hl_n as NN. assert (IN : 0 < / IZR n) by (apply Rinv_0_lt_compat; lra). pose proof PI_3.
    intros X. pose proof (IndexProps.sin_lower x) as L. assert (X0 : 0 <= 15 / 100 / IZR n) by (unfold Rdiv; apply Rmult_le_pos; lra).
    assert (SX : 0 <= sin x) by (apply sin_ge_0; lra). rewrite (Rabs_right x), (Rabs_right (sin x)) in L by lra. unfold Rdiv in X. eapply Rle_trans; [|exact L].
    assert (0 <= x * x <= 1) by nra. apply Rle_trans with (x * (5 / 6)); [unfold Rdiv; lra|]. apply Rmult_le_compat_l; lra.
  Qed.
  Lemma hl_root : rp * cos al < rp - 6 / 5 * c -> 6 / 10 / IZR n - PI / IZR n <= flank_angle rp al pia (rp - 6 / 5 * c) < 0.
  Proof.
    intros BR. pose proof hl_n as NN. destruct hl_al as (A & TA & CA & SA & W & WW). destruct hl_c as (C0 & C1). destruct hl_T as (T0 & T1). destruct hl_pia as (P1 & P2 & _). pose proof PI_31.
    assert (P : 5 <= rp) by (unfold rp; lra). assert (C : 0 < cos al) by (apply cos_gt_0; lra).
    destruct (hl_angle (rp - 6 / 5 * c) ltac:(lra)) as (a & AA & CB & ->).
    assert (CAP : 0 < cos a) by (apply cos_gt_0; lra).
    assert (L : a <= al).
    { destruct (Rle_dec a al) as [G|G]; [exact G|exfalso]. assert (K : cos a < cos al) by (apply cos_decreasing_1; lra). rewrite CB in K.
      apply (Rmult_lt_compat_r (rp - 6 / 5 * c)) in K; [|lra]. unfold Rdiv in K at 1. rewrite (Rmult_assoc (rp * cos al)), Rinv_l, Rmult_1_r in K by lra.
      assert (0 < cos al * (6 / 5 * c)) by (apply Rmult_lt_0_compat; lra). lra. }
    pose proof (inv_diff a al ltac:(lra) L ltac:(lra)) as D.
    assert (ED : / cos al - / cos a = 6 / 5 * c / (rp * cos al)). { rewrite CB. field. lra. }
    rewrite ED in D. pose proof (inv_mono a al ltac:(lra) L ltac:(lra)).
    assert (D2 : inv al - inv a <= 9 / 10 / IZR n).
    { eapply Rle_trans; [exact D|]. apply Rmult_le_reg_r with (IZR n); [lra|]. replace (sin al * (6 / 5 * c / (rp * cos al)) * IZR n) with (24 / 10 * T) by (rewrite SA, CA; unfold rp; field; lra).
      replace (9 / 10 / IZR n * IZR n) with (9 / 10) by (field; lra). lra. }
    assert (EP : PI / IZR n = 2 * pia) by (unfold pia; field; lra).
    assert (P3 : 155 / 100 / IZR n <= pia). { apply Rmult_le_reg_r with (IZR n); [lra|]. replace (155 / 100 / IZR n * IZR n) with (155 / 100) by (field; lra). lra. }
    rewrite EP. split; [|lra]. unfold Rdiv in *. lra.
  Qed.
  Lemma hl_spur : rp * cos al < rp - 6 / 5 * c -> spur rp al pia c (6 / 5 * c) (2 * PI / IZR n).
  Proof.
    intros BR. pose proof hl_n as NN. destruct hl_al as (A & _). destruct hl_c as (C0 & C1). destruct hl_pia as (P1 & P2 & _). pose proof hl_inv as I. pose proof PI_31. pose proof PI_4.
    pose proof (hl_root BR) as R0. destruct hl_land as (L & _). assert (IN : 0 < / IZR n) by (apply Rinv_0_lt_compat; lra).
    assert (EP : 2 * PI / IZR n = 4 * pia) by (unfold pia; field; lra).
    assert (EQ : PI / IZR n = 2 * pia) by (unfold pia; field; lra).
    split; try lra; try (unfold rp; lra); rewrite ?EP; unfold Rdiv in *; lra.
  Qed.

  (** What the searches have to find. *)
  Definition helical_searches (sv : solver) (fs : fsolver) (ts : tsolver) : Prop :=
    let r := IZR n / 2 in let ha := cos helix in let hd := 6 / 5 * cos helix in let a := atan (tan (20 * PI / 180) / cos helix) in let p := PI / (2 * IZR n) in let pitch := 2 * PI / IZR n in
    solved ts r a /\ top_found ts r a p /\
    (r - hd <= r * cos a -> relief_found ts r a p ha hd pitch /\
       forall tooth, involute_undercut_tooth ts r a p 0 pitch (Some (mkLim ha hd)) = Ok tooth ->
         let rc := generate_reference_circles r ha hd (k_ho (ig_core g)) 0 r in
         (tip_found sv tooth (rc_a rc) pitch /\ (forall n1, trim_tip sv tooth (rc_a rc) 0 pitch = Ok n1 -> root_found sv n1 (rc_d rc) pitch)) /\
         plane_sound fs tooth) /\
    (r * cos a < r - hd -> plane_sound fs (plane_involute_tooth ts r a p) /\ crossings_found sv ts (bare g) n 0).

  Lemma hl_layers : (2 <= default_layers h)%nat.
  Proof. unfold default_layers, n_vert_involute. cbv zeta. destruct (Req_EM_T _ 0); destruct (Req_EM_T _ 0); repeat (destruct (Rlt_dec _ _)); repeat (destruct (Req_EM_T _ 0)); lia. Qed.
  Lemma hl_zvals : 0 < height -> 0 < module -> (2 <= length (k_zvals (ig_core g)))%nat.
  Proof.
    intros H M. pose proof hl_n as NN. destruct hl_c as (C0 & C1).
    destruct (C70_sections (default_helical_param n height helix center angle module zanchor) hb) as (_ & Z0 & Z1 & _); cbn [default_helical_param ip_teeth ip_module ip_height ip_helix ip_zanchor] in *; try (lra || (fold c; lra)).
    fold (default_helical_param n height helix center angle module zanchor) in Z0, Z1. change (helical_new _ hb) with h in Z0, Z1. fold g in Z0, Z1.
    assert (MP : 0 < k_module (ig_core g)).
    { unfold g, h, default_helical. destruct (helical_core (default_helical_param n height helix center angle module zanchor) hb) as (zz & ->).
      unfold ig_new. rewrite helical_normalise by (cbn; lra). cbn -[cos]. apply Rdiv_lt_0_compat; [exact M|fold c; lra]. }
    assert (HM : 0 < height / k_module (ig_core g)) by (apply Rdiv_lt_0_compat; assumption).
    destruct (k_zvals (ig_core g)) as [|a [|b l]]; cbn [length nth last] in *; [lra|lra|lia].
  Qed.

  Lemma hl_widths : 0 < IZR n -> / 10000000000 < 2 * (rp + c) * sin (- flank_angle rp al pia (rp + c)) /\ DELTA / 100 <= 2 * (rp - 6 / 5 * c) * sin (PI / IZR n).
  Proof.
    intros _. pose proof hl_n as NN. destruct hl_al as (A & _). destruct hl_c as (C0 & C1). destruct hl_pia as (P1 & P2 & _). pose proof hl_inv as I. pose proof PI_31. pose proof PI_4. destruct hl_land as (L & _).
    assert (IN : 0 < / IZR n) by (apply Rinv_0_lt_compat; lra). assert (IN1 : / IZR n <= / 10) by (apply Rinv_le_contravar; lra). assert (E1 : IZR n * / IZR n = 1) by (field; lra). split.
    - assert (LO : - 1 <= flank_angle rp al pia (rp + c)).
      { unfold flank_angle. destruct (pressure_range rp al (rp + c)) as (AA & _); try (unfold rp; lra); [apply cos_gt_0; lra|].
        set (a := acos _) in *. pose proof (inv_mono 0 a ltac:(lra) ltac:(lra) ltac:(lra)) as M. rewrite inv_0 in M. lra. }
      pose proof (hl_sin (- flank_angle rp al pia (rp + c)) ltac:(unfold Rdiv in *; lra)) as SL.
      apply Rlt_le_trans with (IZR n * (1 / 10 / IZR n)); [unfold Rdiv; replace (IZR n * (1 * / 10 * / IZR n)) with (/ 10 * (IZR n * / IZR n)) by ring; rewrite E1; lra|].
      apply Rmult_le_compat; try (unfold rp; lra). unfold Rdiv. lra.
    - pose proof (hl_sin (PI / IZR n)) as SL. assert (B1 : 3 * / IZR n <= PI * / IZR n) by (apply Rmult_le_compat_r; lra).
      assert (B2 : PI * / IZR n <= 4 * / IZR n) by (apply Rmult_le_compat_r; lra). specialize (SL ltac:(unfold Rdiv in *; lra)).
      apply Rle_trans with (IZR n / 2 * (1 / 10 / IZR n)); [unfold Rdiv; replace (IZR n * / 2 * (1 * / 10 * / IZR n)) with (/ 20 * (IZR n * / IZR n)) by (field; lra); rewrite E1; unfold DELTA; lra|].
      apply Rmult_le_compat; [unfold rp; lra|unfold Rdiv; lra|unfold rp; lra|exact SL].
  Qed.

  (** The base circle outside the root circle: the flank is relieved. *)
  Lemma hl_relief sv fs ts : rp - 6 / 5 * c <= rp * cos al -> helical_searches sv fs ts ->
    exists t, toothed sv fs ts g n 0 t /\ n_point t 0 = circle_pt (rp - 6 / 5 * c) (lowest rp al pia (6 / 5 * c)) /\ n_point t 1 = flank_point rp al pia (rp + c) /\
      (forall s, 0 <= s <= 1 -> (exists x, x <= lowest rp al pia (6 / 5 * c) /\ n_point t s = corner_path rp al pia (6 / 5 * c) x) \/
         exists r, rp * cos al < r <= rp + c /\ n_point t s = flank_point rp al pia r).
  Proof.
    intros BR (S & T' & RS & _). cbv zeta in S, T', RS. fold rp c in S, T', RS. fold T in S, T', RS. fold al in S, T', RS. fold pia in S, T', RS. destruct (RS BR) as (RF & CUT). clear RS.
    pose proof hl_n as NN. destruct hl_al as (A & TA & _). destruct hl_c as (C0 & C1). destruct hl_T as (T0 & T1). destruct hl_pia as (P1 & P2 & Q). pose proof hl_inv as I. pose proof PI_31. pose proof PI_4.
    destruct hl_k as (EA & ED & EAL & EP). pose proof (hl_relieved BR) as RL. pose proof hl_cyl as CG. destruct hl_land as (_ & LT). destruct (hl_widths ltac:(lra)) as (W1 & W2).
    assert (IN : 0 < / IZR n) by (apply Rinv_0_lt_compat; lra). assert (IN1 : / IZR n <= / 10) by (apply Rinv_le_contravar; lra). assert (E1 : IZR n * / IZR n = 1) by (field; lra).
    assert (EG : ig_tooth ts g 0 = involute_undercut_tooth ts rp al pia 0 (2 * PI / IZR n) (Some (mkLim c (6 / 5 * c)))).
    { unfold ig_tooth. rewrite EA, ED, EAL, EP, (cg_cone _ _ CG), (cg_rp _ _ CG), (cg_teeth _ _ CG), hl_in. cbn [ip_undercut]. destruct (Req_EM_T 0 0); [reflexivity|contradiction]. }
    assert (RG : relief_gear sv fs ts g n 0).
    { split; rewrite ?EA, ?ED, ?EAL, ?EP, ?EG; rewrite ?hl_in; cbn [ip_undercut ip_tip_fillet ip_root_fillet ip_tip_trunc]; fold rp; try reflexivity; try assumption.
      - intros tooth K. apply CUT, K.
      - intros _. fold q. split; [lra|]. split; [lra|]. split; [|intros tooth K; apply CUT, K]. rewrite Rplus_assoc. exact LT. }
    assert (LOW : lowest rp al pia (6 / 5 * c) = - (2 * q / IZR n)) by (unfold lowest; fold q; unfold rp; field; lra).
    destruct (C121_involute sv fs ts g n 0 CG RG) as (t & TD & Q0 & Q1 & PTS & _ & _); cbv zeta in *; rewrite ?EA, ?ED, ?EAL, ?EP in *; fold rp; try assumption.
    - rewrite LOW. assert (EX : 2 * PI / IZR n / 2 + - (2 * q / IZR n) = (PI - 2 * q) * / IZR n) by (field; lra). rewrite EX.
      pose proof (hl_sin ((PI - 2 * q) * / IZR n)) as SL. assert (B1 : 6 / 10 * / IZR n <= (PI - 2 * q) * / IZR n) by (apply Rmult_le_compat_r; lra).
      assert (B2 : (PI - 2 * q) * / IZR n <= 4 * / IZR n) by (apply Rmult_le_compat_r; lra). specialize (SL ltac:(unfold Rdiv in *; lra)).
      apply Rlt_le_trans with (IZR n / 2 * (1 / 10 / IZR n)); [unfold Rdiv; replace (IZR n * / 2 * (1 * / 10 * / IZR n)) with (/ 20 * (IZR n * / IZR n)) by (field; lra); rewrite E1; lra|].
      apply Rmult_le_compat; [unfold rp; lra|unfold Rdiv; lra|unfold rp; lra|exact SL].
    - exists t. split; [exact TD|]. split; [exact Q0|]. split; [exact Q1|exact PTS].
  Qed.

  (** The base circle inside the root circle: the flank is the plain involute. *)
  Lemma hl_untouched sv fs ts : rp * cos al < rp - 6 / 5 * c -> helical_searches sv fs ts -> untouched fs ts g n 0.
  Proof.
    intros BR (S & T' & _ & PL). cbv zeta in S, T', PL. fold rp c in S, T', PL. fold T in S, T', PL. fold al in S, T', PL. fold pia in S, T', PL. destruct (PL BR) as (SO & _).
    destruct hl_k as (EA & ED & EAL & EP). pose proof hl_n as NN. destruct hl_al as (A & _). destruct hl_c as (C0 & C1). destruct hl_pia as (P1 & P2 & _). pose proof hl_inv as I. pose proof PI_31. destruct hl_land as (_ & LT).
    split; rewrite ?EAL, ?EP, ?EA, ?ED, ?hl_in; fold rp; try assumption; try (intros _; exact BR); try (unfold rp; lra); try lra.
    all: try (intros _). all: cbn [ip_tip_trunc]; rewrite Rplus_assoc; exact LT.
  Qed.
  Lemma hl_plain sv fs ts : rp * cos al < rp - 6 / 5 * c -> helical_searches sv fs ts ->
    exists t, toothed sv fs ts (bare g) n 0 t /\ n_point t 0 = flank_point rp al pia (rp - 6 / 5 * c) /\ n_point t 1 = flank_point rp al pia (rp + c).
  Proof.
    intros BR (S & T' & _ & PL). cbv zeta in S, T', PL. fold rp c in S, T', PL. fold T in S, T', PL. fold al in S, T', PL. fold pia in S, T', PL. destruct (PL BR) as (SO & CF).
    pose proof hl_n as NN. destruct hl_al as (A & TA & _). destruct hl_c as (C0 & C1). destruct hl_pia as (P1 & P2 & _). pose proof PI_31. pose proof PI_4.
    destruct hl_k as (EA & ED & EAL & EP). pose proof (hl_root BR) as R0. destruct (hl_widths ltac:(lra)) as (W1 & W2). pose proof (bare_cyl g n hl_cyl) as CB.
    assert (IN : 0 < / IZR n) by (apply Rinv_0_lt_compat; lra). assert (IN1 : / IZR n <= / 10) by (apply Rinv_le_contravar; lra). assert (E1 : IZR n * / IZR n = 1) by (field; lra).
    destruct (C116_involute sv fs ts (bare g) n 0 CB) as (t & TD & Q0 & Q1).
    - split; cbn [bare ig_in bare_param ip_undercut ip_tip_fillet ip_root_fillet ip_tip_trunc]; rewrite ?hl_in; reflexivity.
    - cbn [bare ig_core]. rewrite bare_pia, EAL, EP, EA, ED. apply hl_spur, BR.
    - exact CF.
    - cbn [bare ig_core]. rewrite bare_pia, EAL, EP, EA. fold rp. exact W1.
    - cbn [bare ig_core]. rewrite bare_pia, EAL, EP, ED. fold rp. replace (2 * PI / IZR n / 2) with (PI / IZR n) by (field; lra).
      assert (B2 : PI * / IZR n <= 4 * / IZR n) by (apply Rmult_le_compat_r; lra).
      pose proof (hl_sin (PI / IZR n + flank_angle rp al pia (rp - 6 / 5 * c)) ltac:(unfold Rdiv in *; lra)) as SL.
      apply Rlt_le_trans with (IZR n / 2 * (1 / 10 / IZR n)); [unfold Rdiv; replace (IZR n * / 2 * (1 * / 10 * / IZR n)) with (/ 20 * (IZR n * / IZR n)) by (field; lra); rewrite E1; lra|].
      apply Rmult_le_compat; [unfold rp; lra|unfold Rdiv; lra|unfold rp; lra|exact SL].
    - cbn [bare ig_core]. rewrite ED. fold rp. exact W2.
    - cbn [bare ig_core] in Q0, Q1. rewrite bare_pia, EAL, EP, ED in Q0. rewrite bare_pia, EAL, EP, EA in Q1. exists t. split; [exact TD|]. split; [exact Q0|exact Q1].
  Qed.

  (** build_part() succeeds and the skin of the part is closed.  The teeth end on the circle of radius n/2 + cos(helix) and start on the circle of
      radius n/2 - 1.2 cos(helix), in units of the transverse module; the flank is the involute of the transverse pressure angle, with the path of
      the corner of the rack below it where the base circle lies outside the root circle. *)
  Theorem C122_default sv fs ts mid optC optS : 0 < height -> 0 < module -> helical_searches sv fs ts -> fits_converged sv fs ts mid optC optS h ->
    exists t cy, build_part sv fs ts mid optC optS h = Ok cy /\ paired (all_edges cy) /\
      length (cy_sides cy) = (Z.to_nat n * ((length (k_zvals (ig_core g)) - 1) * (2 * (1 + length (leaves t)))))%nat /\
      n_point t 1 = flank_point rp al pia (rp + c) /\
      (rp - 6 / 5 * c <= rp * cos al -> toothed sv fs ts g n 0 t /\ n_point t 0 = circle_pt (rp - 6 / 5 * c) (lowest rp al pia (6 / 5 * c)) /\
         forall s, 0 <= s <= 1 -> (exists x, x <= lowest rp al pia (6 / 5 * c) /\ n_point t s = corner_path rp al pia (6 / 5 * c) x) \/
           exists r, rp * cos al < r <= rp + c /\ n_point t s = flank_point rp al pia r) /\
      (rp * cos al < rp - 6 / 5 * c -> toothed sv fs ts (bare g) n 0 t /\ n_point t 0 = flank_point rp al pia (rp - 6 / 5 * c) /\
         ig_profile sv fs ts g 0 = ig_profile sv fs ts (bare g) 0).
  Proof.
    intros H M SS FC. pose proof hl_cyl as CG. pose proof hl_layers as HL. pose proof (hl_zvals H M) as HZ.
    assert (CR : ip_crown (ig_in g) = 0) by (rewrite hl_in; reflexivity).
    destruct (Rle_dec (rp - 6 / 5 * c) (rp * cos al)) as [BR|BR].
    - destruct (hl_relief sv fs ts BR SS) as (t & TD & Q0 & Q1 & PTS).
      destruct (C116_uncrowned sv fs ts mid optC optS h n 4 (default_layers h) t CG ltac:(lia) HL CR TD HZ (or_intror FC)) as (cy & EB & PA & LC).
      exists t, cy. split; [exact EB|]. split; [exact PA|]. split; [exact LC|]. split; [exact Q1|]. split; [intros _; split; [exact TD|split; [exact Q0|exact PTS]]|]. intros K. lra.
    - assert (BS : rp * cos al < rp - 6 / 5 * c) by lra. destruct (hl_plain sv fs ts BS SS) as (t & TD & Q0 & Q1). pose proof (hl_untouched sv fs ts BS SS) as UN.
      assert (GF : gear_section sv fs ts mid h = gear_section sv fs ts mid (hbare h)).
      { apply FunctionalExtensionality.functional_extensionality. intros z. unfold gear_section. cbn [hbare h_gear]. fold g.
        assert (UZ : untouched fs ts g n z) by (destruct UN as [U1 U2 U3 U4 U5 U6 U7 U8 U9 U10]; split; rewrite ?(pia_const g z 0 CR); assumption).
        rewrite (C120_profile sv fs ts g n z CG UZ). reflexivity. }
      unfold fits_converged, section_at in FC. rewrite GF in FC.
      destruct (C116_uncrowned sv fs ts mid optC optS (hbare h) n 4 (default_layers h) t (bare_cyl g n CG) ltac:(lia) HL CR TD HZ (or_intror FC)) as (cy & EB & PA & LC).
      exists t, cy. rewrite (C120_part sv fs ts mid optC optS h n CG CR UN). split; [exact EB|]. split; [exact PA|]. split; [exact LC|]. split; [exact Q1|]. split; [intros K; lra|].
      intros _. split; [exact TD|]. split; [exact Q0|]. apply (C120_profile sv fs ts g n 0 CG UN).
  Qed.

  (** Searches with such answers exist, unless the corner of the rack passes exactly through the foot of the involute. *)
  Theorem C122_solvable : 6 / 5 * c <> rp * (sin al * sin al) -> exists sv fs ts, helical_searches sv fs ts.
  Proof.
    intros NE. pose proof hl_n as NN. destruct hl_al as (A & TA & CA & SA & W & WW). destruct hl_c as (C0 & C1). destruct hl_T as (T0 & T1). destruct hl_pia as (P1 & P2 & Q). pose proof hl_inv as I. pose proof PI_31. pose proof PI_4.
    assert (P : 5 <= rp) by (unfold rp; lra). assert (C : 0 < cos al) by (apply cos_gt_0; lra).
    destruct (Rle_dec (rp - 6 / 5 * c) (rp * cos al)) as [BR|BR].
    - destruct (relief_solvable rp al pia c (6 / 5 * c) (k_ho (ig_core g)) (2 * PI / IZR n) (hl_relieved BR)) as (sv & fs & ts & S & T' & RF & K).
      + lra.
      + lra.
      + fold q. assert (sqrt (rp * rp - (rp - 6 / 5 * c) * (rp - 6 / 5 * c)) <= rp - 147 / 100); [|lra].
        rewrite <- (sqrt_square (rp - 147 / 100)) by lra. apply sqrt_le_1_alt.
        assert ((rp - 6 / 5) * (rp - 6 / 5) <= (rp - 6 / 5 * c) * (rp - 6 / 5 * c)) by (apply Rmult_le_compat; lra). assert (5 * rp <= rp * rp) by (apply Rmult_le_compat_r; lra).
        assert (0 <= (rp - 5) * (rp - 5)) by apply Rle_0_sqr. lra.
      + destruct (Rlt_dec (6 / 5 * c) (rp * (sin al * sin al))) as [HS|HS].
        * apply corner_reached; try assumption; lra.
        * destruct (half_angle rp (6 / 5 * c) ltac:(lra) ltac:(lra) ltac:(lra)) as (u & U & EU).
          apply (corner_cuts rp al pia (6 / 5 * c) u); try assumption; [lra|lra|lra|].
          assert (SU : 0 < sin u) by (apply sin_gt_0; lra). assert (S2 : sin u * sin u <= 12 / 100).
          { assert (5 * (2 * (sin u * sin u)) <= rp * (2 * (sin u * sin u))) by (apply Rmult_le_compat_r; [assert (0 <= sin u * sin u) by apply Rle_0_sqr; lra|lra]). lra. }
          assert (TL : 36 / 100 <= tan al). { rewrite TA. apply Rmult_le_reg_r with c; [lra|]. replace (T / c * c) with T by (field; lra). lra. }
          apply Rlt_le_trans with (sin u * cos u + sin u * sin u * (36 / 100)); [apply cut_bound; [lra|]|apply Rplus_le_compat_l, Rmult_le_compat_l; [apply Rle_0_sqr|exact TL]].
          left. apply sq_lt; lra.
      + exists sv, fs, ts. unfold helical_searches. cbv zeta. fold rp c. fold T. fold al. fold pia. split; [exact S|]. split; [exact T'|]. split; [|intros K2; lra].
        intros _. split; [exact RF|]. intros tooth E. destruct (K tooth E) as (K1 & K2 & _). split; assumption.
    - assert (BS : rp * cos al < rp - 6 / 5 * c) by lra. clear BR.
      destruct (sharp_searches rp al pia ltac:(lra) A ltac:(lra) ltac:(lra)) as (ts & rs & x0 & SV & TF & RS & Z & EV & X & EX).
      assert (B0 : 0 < rp * cos al) by (apply Rmult_lt_0_compat; lra).
      assert (LE : rp + c <= rs).
      { destruct (Rle_dec (rp + c) rs) as [G|G]; [exact G|exfalso].
        destruct (flank_angle_mono rp al pia rs (rp + c) ltac:(lra) C ltac:(lra) ltac:(lra)) as (M & _). destruct hl_land as (L & _).
        assert (0 < / IZR n) by (apply Rinv_0_lt_compat; lra). unfold Rdiv in L. rewrite Z in M. lra. }
      destruct hl_k as (EA & ED & EAL & EP).
      destruct (C105_solvable ts rp al pia c (6 / 5 * c) (k_ho (ig_core g)) rp (2 * PI / IZR n) (hl_spur BS) SV TF) as (sv & TIP & ROOT).
      + lra.
      + lra.
      + rewrite EV. unfold flank_point. rewrite circle_pt_norm by lra. exact LE.
      + exists sv, (meets_at x0), ts. unfold helical_searches. cbv zeta. fold rp c. fold T. fold al. fold pia. split; [exact SV|]. split; [exact TF|]. split; [intros K; lra|].
        intros _. split; [apply (sharp_sound _ x0 rp al pia rs X EX Z)|].
        unfold crossings_found. cbn [bare ig_core]. rewrite bare_pia, EAL, EP, EA, ED. fold rp. split; [exact SV|]. split; [exact TF|]. split; [exact TIP|exact ROOT].
  Qed.
End Helix.

(** An optimiser whose fits have converged exists. *)
Theorem C122_fits sv fs ts mid optC n height helix hb center angle module zanchor : exists optS,
  fits_converged sv fs ts mid optC optS (default_helical n height helix hb center angle module zanchor).
Proof.
  set (h := default_helical n height helix hb center angle module zanchor). set (nv := default_layers h). set (tw := n_z_tweens nv 3).
  exists (fun tg => best_fit tg tw (length (nb_points (chain_at optC 4 3 (section_at sv fs ts mid h) (section_trf h) 0))) nv).
  intros hs _. cbv zeta. apply C115_solvable; [apply hl_layers|]. assert (L : (2 <= nv)%nat) by apply hl_layers. fold nv. fold tw. unfold tw, n_z_tweens.
  assert (R : 0 <= (INR nv - 2) * 3). { apply le_INR in L. cbn [INR] in L. lra. }
  assert (0 <= ceilZ ((INR nv - 2) * 3))%Z; [|lia]. pose proof (ceilZ_bound ((INR nv - 2) * 3)) as C. apply le_IZR. lra.
Qed.

(** ** Examples *)
Lemma helix30 : 866 / 1000 < cos (PI / 6) < 867 / 1000.
Proof. rewrite cos_PI6. assert (S3 : 17321 / 10000 > sqrt 3) by (apply sqrt_bound_up; lra). assert (17320 / 10000 < sqrt 3) by (apply sqrt_bound; lra). lra. Qed.
Lemma alpha30 : let a := atan (tan (20 * PI / 180) / cos (PI / 6)) in 145 / 1000 < sin a * sin a < 155 / 1000.
Proof.
  cbv zeta. pose proof helix30 as H. destruct (hl_al (PI / 6) ltac:(lra)) as (A & TA & CA & SA & W & WW). rewrite SA.
  destruct hl_T as (T0 & T1). set (T := tan (20 * PI / 180)) in *. set (c := cos (PI / 6)) in *. set (w := sqrt (c * c + T * T)) in *.
  assert (36 / 100 * (36 / 100) < T * T) by (apply Rmult_le_0_lt_compat; lra). assert (T * T < 37 / 100 * (37 / 100)) by (apply Rmult_le_0_lt_compat; lra).
  assert (866 / 1000 * (866 / 1000) < c * c) by (apply Rmult_le_0_lt_compat; lra). assert (c * c < 867 / 1000 * (867 / 1000)) by (apply Rmult_le_0_lt_compat; lra).
  replace (T / w * (T / w)) with (T * T / (w * w)) by (field; lra). rewrite WW.
  split; apply Rmult_lt_reg_r with (c * c + T * T); try lra; unfold Rdiv; rewrite ?(Rmult_assoc (T * T)), Rinv_l by lra; lra.
Qed.
(** HelicalGear(12, helix_angle=pi/6, herringbone=True): the corner of the rack cuts into the involute. *)
Example C122_solvable_example : exists sv fs ts, helical_searches 12 10 (PI / 6) true ORIGIN 0 2 0 sv fs ts.
Proof. pose proof helix30. pose proof alpha30. cbv zeta in *. apply C122_solvable; [lia|lra|lra]. Qed.
Example C122_default_example : exists sv fs ts, forall mid optC, exists optS cy,
  build_part sv fs ts mid optC optS (default_helical 12 10 (PI / 6) true ORIGIN 0 2 0) = Ok cy /\ paired (all_edges cy) /\ cy_sides cy <> [].
Proof.
  destruct C122_solvable_example as (sv & fs & ts & SS). exists sv, fs, ts. intros mid optC.
  destruct (C122_fits sv fs ts mid optC 12 10 (PI / 6) true ORIGIN 0 2 0) as (optS & FC). pose proof helix30.
  assert (B : 1 / 2 <= cos (PI / 6)) by lra. pose proof (hl_zvals 12 10 (PI / 6) true ORIGIN 0 2 0 ltac:(lia) B ltac:(lra) ltac:(lra)) as HZ.
  destruct (C122_default 12 10 (PI / 6) true ORIGIN 0 2 0 ltac:(lia) B sv fs ts mid optC optS ltac:(lra) ltac:(lra) SS FC) as (t & cy & EB & PA & LC & _).
  exists optS, cy. split; [exact EB|]. split; [exact PA|]. intros E. rewrite E in LC. cbn [length] in LC. revert LC HZ. change (Z.to_nat 12) with 12%nat.
  generalize (length (k_zvals (ig_core (h_gear (default_helical 12 10 (PI / 6) true ORIGIN 0 2 0))))) (length (leaves t)). intros a b LC HZ.
  assert (1 * 2 <= (a - 1) * (2 * (1 + b)))%nat by (apply Nat.mul_le_mono; lia). lia.
Qed.
(** With sixty teeth the base circle lies inside the root circle: the part is that of the gear without undercut relief. *)
Example C122_default_example_plain : exists sv fs ts, forall mid optC, exists optS cy,
  build_part sv fs ts mid optC optS (default_helical 60 10 (PI / 6) false ORIGIN 0 2 0) = Ok cy /\ paired (all_edges cy) /\
  ig_profile sv fs ts (h_gear (default_helical 60 10 (PI / 6) false ORIGIN 0 2 0)) 0 = ig_profile sv fs ts (bare (h_gear (default_helical 60 10 (PI / 6) false ORIGIN 0 2 0))) 0.
Proof.
  pose proof helix30 as H. pose proof alpha30 as A. cbv zeta in A. destruct (C122_solvable 60 10 (PI / 6) false ORIGIN 0 2 0) as (sv & fs & ts & SS); [lia|lra|lra|].
  exists sv, fs, ts. intros mid optC. destruct (C122_fits sv fs ts mid optC 60 10 (PI / 6) false ORIGIN 0 2 0) as (optS & FC).
  destruct (C122_default 60 10 (PI / 6) false ORIGIN 0 2 0 ltac:(lia) ltac:(lra) sv fs ts mid optC optS ltac:(lra) ltac:(lra) SS FC) as (t & cy & EB & PA & LC & _ & _ & PL).
  exists optS, cy. split; [exact EB|]. split; [exact PA|]. apply PL. set (a := atan _) in *. pose proof (sc1 a) as S.
  assert (cos a < 93 / 100); [|lra]. destruct (hl_al (PI / 6) ltac:(lra)) as (AA & _). fold a in AA. assert (0 < cos a) by (apply cos_gt_0; lra). apply sq_lt; lra.
Qed.
