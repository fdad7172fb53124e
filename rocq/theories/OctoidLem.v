(** Geometry of the octoid flank: the cone angle and the polar angle of its points. *)
From Coq Require Import Nsatz Reals Lra Psatz.
From Coquelicot Require Import Coquelicot.
From Verif Require Import Num Vec Coords GenProps RackConjProps OctoidProps.
Open Scope R_scope.

(** The point of the flank that touches the crown rack when the gear has turned by [pia - t]. *)
Definition bevel_pt (rp g alpha pia t : R) : vec :=
  turned (- (pia - t)) (crown_to_gear rp g (foot (slant rp g) (pole alpha (- t * sin g)))).
(** Sine of the angle, seen from the apex, between that point and the pitch point. *)
Definition reach_sin (g alpha t : R) : R := cos alpha * sin (t * sin g).
(** Cosine of its cone angle. *)
Definition cone_cos (g alpha w : R) : R := sqrt (1 - w * w) * cos g - w * (sin alpha * sin g) / sqrt (1 - w * w).
(** Its polar angle. *)
Definition side_x (g alpha w : R) : R := (1 - w * w) * sin g + w * (sin alpha * cos g).
Definition side_y (g alpha t : R) : R := - (reach_sin g alpha t * (cos alpha * cos (t * sin g))).
Definition bevel_angle (g alpha pia t : R) : R := t - pia + atan (side_y g alpha t / side_x g alpha (reach_sin g alpha t)).

Lemma reach_sin_lt g alpha t : 0 < alpha < PI / 2 -> - 1 < reach_sin g alpha t < 1.
Proof.
  intros A. unfold reach_sin. assert (0 < cos alpha) by (apply cos_gt_0; lra).
  assert (cos alpha < 1) by (rewrite <- cos_0; apply cos_decreasing_1; lra).
  pose proof (SIN_bound (t * sin g)) as S. generalize dependent (sin (t * sin g)). intros s S.
  assert (0 <= cos alpha * (1 - s)) by (apply Rmult_le_pos; lra). assert (0 <= cos alpha * (1 + s)) by (apply Rmult_le_pos; lra). lra.
Qed.
Lemma below_one w : - 1 < w < 1 -> 0 < 1 - w * w.
Proof. intros H. assert (0 < (1 - w) * (1 + w)) by (apply Rmult_lt_0_compat; lra). lra. Qed.

Lemma bevel_coords rp g alpha pia t : bevel rp g alpha ->
  let w := reach_sin g alpha t in let k := slant rp g / sqrt (1 - w * w) in
  bevel_pt rp g alpha pia t = V (k * (side_x g alpha w * cos (t - pia) - side_y g alpha t * sin (t - pia)))
    (k * (side_x g alpha w * sin (t - pia) + side_y g alpha t * cos (t - pia))) (rp / tan g - slant rp g * cone_cos g alpha w).
Proof.
  intros [R0 G A] w k. pose proof (reach_sin_lt g alpha t A) as W. fold w in W. pose proof (below_one w W) as W1.
  assert (Q : sqrt (1 - w * w) * sqrt (1 - w * w) = 1 - w * w) by (apply sqrt_sqrt; lra).
  assert (Q0 : 0 < sqrt (1 - w * w)) by (apply sqrt_lt_R0; exact W1).
  unfold bevel_pt, turned, crown_to_gear, foot, pitch_apex.
  assert (E : dot RIGHT (pole alpha (- t * sin g)) = - w).
  { unfold w, reach_sin, pole. replace (- t * sin g) with (- (t * sin g)) by ring. vec_simpl. rewrite ?cos_neg, ?sin_neg. ring. }
  rewrite E. replace (1 - - w * - w) with (1 - w * w) by ring. fold k.
  assert (KZ : slant rp g * cone_cos g alpha w = k * ((1 - w * w) * cos g - w * (sin alpha * sin g))).
  { unfold k, cone_cos. clear - Q Q0. generalize dependent (sqrt (1 - w * w)). intros q Q Q0. rewrite <- Q. field. lra. }
  rewrite KZ. clear KZ E. clearbody k. replace (- (pia - t)) with (t - pia) by ring.
  unfold side_x, side_y, pole. replace (- t * sin g) with (- (t * sin g)) by ring. fold w.
  assert (WE : w = cos alpha * sin (t * sin g)) by reflexivity. clearbody w.
  pose proof (sc1 (t * sin g)) as X. pose proof (sc1 alpha) as Y. generalize (rp / tan g). intros h. clear - WE X Y.
  apply vec_eq; vec_simpl; rewrite ?cos_neg, ?sin_neg, ?cos_shift, ?sin_shift; rewrite WE; clear WE;
  generalize dependent (sin (t * sin g)); generalize (cos (t * sin g)); generalize dependent (sin alpha); generalize (cos alpha);
  generalize (sin g) (cos g) (cos (t - pia)) (sin (t - pia)); intros; nsatz.
Qed.

(** All points of the flank are on the sphere about the apex. *)
Lemma bevel_sphere g alpha t : 0 < alpha < PI / 2 -> let w := reach_sin g alpha t in
  side_x g alpha w * side_x g alpha w + side_y g alpha t * side_y g alpha t = (1 - w * w) * (1 - cone_cos g alpha w * cone_cos g alpha w).
Proof.
  intros A w. pose proof (reach_sin_lt g alpha t A) as W. fold w in W. pose proof (below_one w W) as W1.
  assert (Q : sqrt (1 - w * w) * sqrt (1 - w * w) = 1 - w * w) by (apply sqrt_sqrt; lra).
  assert (Q0 : 0 < sqrt (1 - w * w)) by (apply sqrt_lt_R0; exact W1).
  assert (E : (1 - w * w) * (cone_cos g alpha w * cone_cos g alpha w) =
    ((1 - w * w) * cos g - w * (sin alpha * sin g)) * ((1 - w * w) * cos g - w * (sin alpha * sin g))).
  { unfold cone_cos. clear - Q Q0. generalize dependent (sqrt (1 - w * w)). intros q Q Q0. rewrite <- Q. field. lra. }
  transitivity ((1 - w * w) - (1 - w * w) * (cone_cos g alpha w * cone_cos g alpha w)); [|ring]. rewrite E. clear E.
  unfold side_x, side_y. fold w. assert (WE : w = cos alpha * sin (t * sin g)) by reflexivity. clearbody w.
  pose proof (sc1 (t * sin g)) as X. pose proof (sc1 alpha) as Y. pose proof (sc1 g) as Z. clear - WE X Y Z.
  generalize dependent (sin (t * sin g)); generalize (cos (t * sin g)); generalize dependent (sin alpha); generalize (cos alpha);
  generalize dependent (sin g); generalize (cos g); intros. subst w. nsatz.
Qed.

(** No undercut down to the parameter [lo]. *)
Record bevel_range (g alpha lo hi : R) : Prop := {
  br_g : 0 < g < PI / 2; br_alpha : 0 < alpha < PI / 2;
  br_lo : - (PI / 2) <= lo * sin g; br_hi : hi * sin g <= PI / 2;
  br_under : - reach_sin g alpha lo * cos g < sin alpha * sin g }.

Lemma reach_mono g alpha lo hi t u : bevel_range g alpha lo hi -> lo <= t -> t < u -> u <= hi ->
  reach_sin g alpha t < reach_sin g alpha u.
Proof.
  intros [G A L H _] T TU U. assert (S : 0 < sin g) by (apply sin_gt_0; lra). assert (C : 0 < cos alpha) by (apply cos_gt_0; lra).
  assert (lo * sin g <= t * sin g) by (apply Rmult_le_compat_r; lra). assert (t * sin g < u * sin g) by (apply Rmult_lt_compat_r; lra).
  assert (u * sin g <= hi * sin g) by (apply Rmult_le_compat_r; lra).
  unfold reach_sin. apply Rmult_lt_compat_l; [exact C|]. apply sin_increasing_1; lra.
Qed.
Lemma reach_le g alpha lo hi t u : bevel_range g alpha lo hi -> lo <= t -> t <= u -> u <= hi ->
  reach_sin g alpha t <= reach_sin g alpha u.
Proof. intros B T [U|U] H; [left; apply (reach_mono g alpha lo hi); assumption|subst; lra]. Qed.

Lemma under_all g alpha lo hi t : bevel_range g alpha lo hi -> lo <= t <= hi ->
  0 < sin alpha * sin g + reach_sin g alpha t * cos g /\ 0 < sin alpha * sin g + reach_sin g alpha t * (1 - reach_sin g alpha t * reach_sin g alpha t) * cos g.
Proof.
  intros B T. pose proof (reach_le g alpha lo hi lo t B ltac:(lra) ltac:(lra) ltac:(lra)) as L. destruct B as [G A _ _ U].
  assert (C : 0 < cos g) by (apply cos_gt_0; lra). pose proof (reach_sin_lt g alpha t A) as W. pose proof (below_one _ W) as W1.
  assert (P : 0 < sin alpha * sin g) by (apply Rmult_lt_0_compat; apply sin_gt_0; lra).
  set (w := reach_sin g alpha t) in *. set (v := reach_sin g alpha lo) in *. assert (v * cos g <= w * cos g) by (apply Rmult_le_compat_r; lra).
  split; [lra|]. destruct (Rle_dec 0 w) as [N|N].
  - assert (0 <= w * (1 - w * w)) by (apply Rmult_le_pos; lra). assert (0 <= w * (1 - w * w) * cos g) by (apply Rmult_le_pos; lra). lra.
  - assert (0 <= - w * (w * w)) by (apply Rmult_le_pos; [lra|apply Rle_0_sqr]). assert (0 <= - w * (w * w) * cos g) by (apply Rmult_le_pos; lra). lra.
Qed.

Lemma cone_cos_derive g alpha w : - 1 < w < 1 ->
  derivable_pt_lim (cone_cos g alpha) w (- (sin alpha * sin g + w * (1 - w * w) * cos g) / ((1 - w * w) * sqrt (1 - w * w))).
Proof.
  intros W. pose proof (below_one w W) as W1. assert (Q0 : 0 < sqrt (1 - w * w)) by (apply sqrt_lt_R0; exact W1).
  assert (Q : sqrt (1 - w * w) * sqrt (1 - w * w) = 1 - w * w) by (apply sqrt_sqrt; lra).
  apply is_derive_Reals. unfold cone_cos. auto_derive.
  - replace (1 + - (w * w)) with (1 - w * w) by ring. repeat split; try exact W1. lra.
  - replace (1 + - (w * w)) with (1 - w * w) by ring. set (q := sqrt (1 - w * w)) in *.
    field_simplify_eq; [|split; lra]. replace (q ^ 2) with (q * q) by ring. replace (q ^ 3) with (q * (q * q)) by ring.
    replace (q ^ 4) with (q * q * (q * q)) by ring. rewrite ?Q. ring.
Qed.

Theorem cone_cos_falls g alpha lo hi t u : bevel_range g alpha lo hi -> lo <= t -> t < u -> u <= hi ->
  cone_cos g alpha (reach_sin g alpha u) < cone_cos g alpha (reach_sin g alpha t).
Proof.
  intros B T TU U. pose proof (reach_mono g alpha lo hi t u B T TU U) as L. pose proof B as [G A BL BH _].
  pose proof (reach_sin_lt g alpha t A) as Wt. pose proof (reach_sin_lt g alpha u A) as Wu.
  pose proof (under_all g alpha lo hi t B ltac:(lra)) as (U1 & _).
  set (a := reach_sin g alpha t) in *. set (b := reach_sin g alpha u) in *.
  destruct (MVT_cor2 (cone_cos g alpha) (fun w => - (sin alpha * sin g + w * (1 - w * w) * cos g) / ((1 - w * w) * sqrt (1 - w * w))) a b L) as (c & E & C).
  { intros c C. apply cone_cos_derive. lra. }
  pose proof (below_one c ltac:(lra)) as W1. assert (Q0 : 0 < sqrt (1 - c * c)) by (apply sqrt_lt_R0; exact W1).
  assert (K : 0 < cos g) by (apply cos_gt_0; lra). assert (P : 0 < sin alpha * sin g) by (apply Rmult_lt_0_compat; apply sin_gt_0; lra).
  assert (N : 0 < sin alpha * sin g + c * (1 - c * c) * cos g).
  { destruct (Rle_dec 0 c) as [M|M].
    - assert (0 <= c * (1 - c * c)) by (apply Rmult_le_pos; lra). assert (0 <= c * (1 - c * c) * cos g) by (apply Rmult_le_pos; lra). lra.
    - assert (a * cos g < c * cos g) by (apply Rmult_lt_compat_r; lra).
      assert (0 <= - c * (c * c)) by (apply Rmult_le_pos; [lra|apply Rle_0_sqr]). assert (0 <= - c * (c * c) * cos g) by (apply Rmult_le_pos; lra). lra. }
  assert (0 < (sin alpha * sin g + c * (1 - c * c) * cos g) / ((1 - c * c) * sqrt (1 - c * c))).
  { apply Rdiv_lt_0_compat; [exact N|apply Rmult_lt_0_compat; assumption]. }
  assert (0 < (sin alpha * sin g + c * (1 - c * c) * cos g) / ((1 - c * c) * sqrt (1 - c * c)) * (b - a)) by (apply Rmult_lt_0_compat; lra).
  unfold Rdiv in *. lra.
Qed.

Lemma side_x_pos g alpha lo hi t : bevel_range g alpha lo hi -> lo <= t <= hi -> 0 < side_x g alpha (reach_sin g alpha t).
Proof.
  intros B T. pose proof (under_all g alpha lo hi t B T) as (U & _). pose proof B as [G A _ _ _]. unfold side_x.
  assert (SA : 0 < sin alpha) by (apply sin_gt_0; lra). assert (SG : 0 < sin g) by (apply sin_gt_0; lra).
  assert (CA : 0 < cos alpha) by (apply cos_gt_0; lra). assert (CG : 0 < cos g) by (apply cos_gt_0; lra).
  pose proof (reach_sin_lt g alpha t A) as W. pose proof (below_one _ W) as W1.
  assert (WW : reach_sin g alpha t * reach_sin g alpha t <= cos alpha * cos alpha).
  { unfold reach_sin. pose proof (sc1 (t * sin g)) as X. assert (0 <= cos (t * sin g) * cos (t * sin g)) by apply Rle_0_sqr.
    assert (0 <= cos alpha * cos alpha * (cos (t * sin g) * cos (t * sin g))) by (apply Rmult_le_pos; [apply Rle_0_sqr|assumption]).
    replace (cos alpha * sin (t * sin g) * (cos alpha * sin (t * sin g))) with (cos alpha * cos alpha * (1 - cos (t * sin g) * cos (t * sin g))) by (rewrite <- X; ring). lra. }
  pose proof (sc1 alpha) as Y. set (w := reach_sin g alpha t) in *.
  assert (sin alpha * (- w * cos g) < sin alpha * (sin alpha * sin g)) by (apply Rmult_lt_compat_l; lra).
  assert (sin alpha * sin alpha * sin g <= (1 - w * w) * sin g) by (apply Rmult_le_compat_r; lra). lra.
Qed.

Lemma bevel_angle_derive g alpha pia lo hi t : bevel_range g alpha lo hi -> lo <= t <= hi ->
  let w := reach_sin g alpha t in
  derivable_pt_lim (bevel_angle g alpha pia) t
    ((sin alpha * sin g + w * cos g) * (sin alpha * sin g + w * (1 - w * w) * cos g) /
     (side_x g alpha w * side_x g alpha w + side_y g alpha t * side_y g alpha t)).
Proof.
  intros B T w. pose proof (side_x_pos g alpha lo hi t B T) as X. fold w in X.
  assert (D : 0 < side_x g alpha w * side_x g alpha w + side_y g alpha t * side_y g alpha t).
  { assert (0 < side_x g alpha w * side_x g alpha w) by (apply Rmult_lt_0_compat; exact X).
    assert (0 <= side_y g alpha t * side_y g alpha t) by apply Rle_0_sqr. lra. }
  apply is_derive_Reals. unfold bevel_angle. unfold side_x, side_y, w, reach_sin in *. auto_derive.
  - replace (1 + - (cos alpha * sin (t * sin g) * (cos alpha * sin (t * sin g)))) with
      (1 - cos alpha * sin (t * sin g) * (cos alpha * sin (t * sin g))) by ring. lra.
  - replace (1 + - (cos alpha * sin (t * sin g) * (cos alpha * sin (t * sin g)))) with
      (1 - cos alpha * sin (t * sin g) * (cos alpha * sin (t * sin g))) by ring.
    pose proof (sc1 (t * sin g)) as E1. pose proof (sc1 alpha) as E2. pose proof (sc1 g) as E3.
    set (s := sin (t * sin g)) in *. set (c := cos (t * sin g)) in *. clearbody s c.
    generalize dependent (sin alpha). intros sa. generalize dependent (cos alpha). intros ca. intros.
    generalize dependent (sin g). intros sg. generalize dependent (cos g). intros cg. intros.
    set (x := (1 - ca * s * (ca * s)) * sg + ca * s * (sa * cg)) in *.
    set (y := - (ca * s * (ca * c))) in *.
    match goal with |- 1 + (?a * / x + y * (- ?b * / (x * x))) * _ = _ => set (dy := a); set (dx := b) end.
    transitivity ((x * x + y * y + (dy * x - y * dx)) / (x * x + y * y)).
    + assert (Z2 : x * x + y * y <> 0) by lra. assert (Z1 : x <> 0) by lra. clear - Z1 Z2. field. repeat split; try assumption; intros Z; apply Z2; lra.
    + f_equal. unfold dx, dy, x, y. clear - E1 E2 E3. nsatz.
Qed.

Theorem bevel_angle_rises g alpha pia lo hi t u : bevel_range g alpha lo hi -> lo <= t -> t < u -> u <= hi ->
  bevel_angle g alpha pia t < bevel_angle g alpha pia u.
Proof.
  intros B T TU U.
  destruct (MVT_cor2 (bevel_angle g alpha pia) (fun t => let w := reach_sin g alpha t in
    ((sin alpha * sin g + w * cos g) * (sin alpha * sin g + w * (1 - w * w) * cos g) /
     (side_x g alpha w * side_x g alpha w + side_y g alpha t * side_y g alpha t))) t u TU) as (c & E & C).
  { intros c C. apply (bevel_angle_derive g alpha pia lo hi c B). lra. }
  cbv zeta in E. pose proof (under_all g alpha lo hi c B ltac:(lra)) as (N1 & N2).
  pose proof (side_x_pos g alpha lo hi c B ltac:(lra)) as X. set (w := reach_sin g alpha c) in *.
  assert (D : 0 < side_x g alpha w * side_x g alpha w + side_y g alpha c * side_y g alpha c).
  { assert (0 < side_x g alpha w * side_x g alpha w) by (apply Rmult_lt_0_compat; exact X).
    assert (0 <= side_y g alpha c * side_y g alpha c) by apply Rle_0_sqr. lra. }
  assert (K : 0 < (sin alpha * sin g + w * cos g) * (sin alpha * sin g + w * (1 - w * w) * cos g) /
     (side_x g alpha w * side_x g alpha w + side_y g alpha c * side_y g alpha c)).
  { apply Rdiv_lt_0_compat; [apply Rmult_lt_0_compat; assumption|exact D]. }
  assert (0 < (sin alpha * sin g + w * cos g) * (sin alpha * sin g + w * (1 - w * w) * cos g) /
     (side_x g alpha w * side_x g alpha w + side_y g alpha c * side_y g alpha c) * (u - t)) by (apply Rmult_lt_0_compat; lra).
  lra.
Qed.

(** The point in polar form. *)
Lemma cone_cos_range g alpha lo hi t : bevel_range g alpha lo hi -> lo <= t <= hi -> - 1 < cone_cos g alpha (reach_sin g alpha t) < 1.
Proof.
  intros B T. pose proof B as [G A _ _ _].
  pose proof (bevel_sphere g alpha t A) as E. cbv zeta in E. pose proof (side_x_pos g alpha lo hi t B T) as X.
  pose proof (reach_sin_lt g alpha t A) as W. pose proof (below_one _ W) as W1. set (w := reach_sin g alpha t) in *.
  assert (0 < side_x g alpha w * side_x g alpha w) by (apply Rmult_lt_0_compat; exact X).
  assert (0 <= side_y g alpha t * side_y g alpha t) by apply Rle_0_sqr. set (cc := cone_cos g alpha w) in *.
  assert (P : 0 < (1 - w * w) * (1 - cc * cc)) by lra.
  assert (Q : 0 < 1 - cc * cc) by (apply (Rmult_lt_reg_l (1 - w * w)); lra).
  split.
  - destruct (Rlt_dec (- 1) cc) as [L|L]; [exact L|exfalso].
    assert (1 * 1 <= - cc * - cc) by (apply Rmult_le_compat; lra). lra.
  - destruct (Rlt_dec cc 1) as [L|L]; [exact L|exfalso].
    assert (1 * 1 <= cc * cc) by (apply Rmult_le_compat; lra). lra.
Qed.

Lemma bevel_polar rp g alpha pia lo hi t : 0 < rp -> bevel_range g alpha lo hi -> lo <= t <= hi ->
  let cc := cone_cos g alpha (reach_sin g alpha t) in
  let r := slant rp g * sqrt (1 - cc * cc) in
  bevel_pt rp g alpha pia t = V (r * cos (bevel_angle g alpha pia t)) (r * sin (bevel_angle g alpha pia t)) (rp / tan g - slant rp g * cc) /\ 0 < r.
Proof.
  intros R0 B T cc r. pose proof B as [G A _ _ _]. rewrite (bevel_coords rp g alpha pia t) by (split; assumption). cbv zeta. fold cc.
  pose proof (side_x_pos g alpha lo hi t B T) as X. pose proof (reach_sin_lt g alpha t A) as W. pose proof (below_one _ W) as W1.
  pose proof (bevel_sphere g alpha t A) as SP. cbv zeta in SP. fold cc in SP.
  pose proof (cone_cos_range g alpha lo hi t B T) as CR. fold cc in CR.
  set (w := reach_sin g alpha t) in *. set (x := side_x g alpha w) in *. set (y := side_y g alpha t) in *.
  assert (Q0 : 0 < sqrt (1 - w * w)) by (apply sqrt_lt_R0; exact W1).
  assert (C1 : 0 < 1 - cc * cc) by (apply below_one; lra).
  destruct (slant_pos rp g R0 ltac:(lra)) as (_ & SL).
  assert (RP : 0 < r) by (apply Rmult_lt_0_compat; [exact SL|apply sqrt_lt_R0; exact C1]).
  assert (RE : slant rp g / sqrt (1 - w * w) * sqrt (x * x + y * y) = r).
  { rewrite SP, sqrt_mult by lra. unfold r. field. lra. }
  set (a := atan (y / x)). assert (AB : - PI / 2 < a < PI / 2) by apply atan_bound. assert (CA : 0 < cos a) by (apply cos_gt_0; lra).
  assert (TA : y / x = sin a / cos a) by (change (sin a / cos a) with (tan a); symmetry; apply tan_atan).
  assert (N : sqrt (x * x + y * y) = x / cos a).
  { rewrite <- (sqrt_square (x / cos a)) by (left; apply Rdiv_lt_0_compat; assumption). f_equal.
    replace y with (x * (sin a / cos a)) by (rewrite <- TA; field; lra). pose proof (sc1 a) as E.
    transitivity (x * x * (sin a * sin a + cos a * cos a) / (cos a * cos a)); [field; lra|]. rewrite E. field. lra. }
  assert (XE : x = sqrt (x * x + y * y) * cos a) by (rewrite N; field; lra).
  assert (YE : y = sqrt (x * x + y * y) * sin a) by (rewrite N; transitivity (x * (y / x)); [field; lra|rewrite TA; field; lra]).
  split; [|exact RP]. rewrite <- RE. unfold bevel_angle. fold w x y a. rewrite cos_plus, sin_plus.
  clear - XE YE. set (m := sqrt (x * x + y * y)) in *. clearbody m. rewrite XE, YE. 
  apply vec_eq; cbn [vx vy vz]; ring.
Qed.
