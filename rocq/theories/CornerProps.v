(** C131: the tangent arc of calc_tangent_arc (curve.py 948-995, in Fillet.v) between two straight edges. *)
From Coq Require Import Reals List ZArith Lra Lia Psatz Bool.
From Verif Require Import Num Vec Coords CoordsProps Curve CurveLem CurveProps ArcLem ArcProps Chain ChainLem ChainProps GearMath Fillet FilletProps.
From Verif Require Import Corner.
Import ListNotations.
Open Scope R_scope.

(** ** Specification *)
(** The angle by which the path from [A] over [Q] to [B] turns at [Q], and the length of the tangents from [Q] to a circle
    of radius [r] that touches both edges. *)
Definition turning (A Q B : vec) : R := angle_between (vsub Q A) (vsub B Q).
Definition tangent_length (A Q B : vec) (r : R) : R := r * tan (turning A Q B / 2).
(** The edges are not in one line. *)
Definition bent (A Q B : vec) : Prop := cross (vsub Q A) (vsub B Q) <> ORIGIN.

Definition edge (p q : vec) : node := Prim (line_curve p q true).

Lemma edge_eval p q t : n_eval (edge p q) t = Ok (vadd (smul (1 - t) p) (smul t q)).
Proof.
  unfold edge. cbn [n_eval]. f_equal. rewrite line_eval. clear. vec_ring.
Qed.
Lemma edge_derivative p q t : n_derivative (edge p q) t = Ok (vsub q p).
Proof.
  unfold n_derivative. rewrite !edge_eval. cbn [bind]. f_equal. unfold DELTA. destruct p, q. apply vec_eq; vec_simpl; field.
Qed.

Lemma bent_nz A Q B : bent A Q B -> vsub Q A <> ORIGIN /\ vsub B Q <> ORIGIN.
Proof. apply cross_nz. Qed.

Lemma half_angle th : 0 < th < PI -> sin th * tan (th / 2) = 1 - cos th /\ sin th - tan (th / 2) * cos th = tan (th / 2).
Proof.
  intros H. assert (C : 0 < cos (th / 2)) by (apply cos_gt_0; lra).
  assert (S2 : sin th = 2 * sin (th / 2) * cos (th / 2)) by (rewrite <- sin_2a; f_equal; field).
  assert (C2 : cos th = cos (th / 2) * cos (th / 2) - sin (th / 2) * sin (th / 2)) by (rewrite <- cos_2a; f_equal; field).
  pose proof (sin2_cos2 (th / 2)) as I. unfold Rsqr in I. unfold tan. rewrite S2, C2.
  set (s := sin (th / 2)) in *. set (c := cos (th / 2)) in *. clearbody s c. split.
  - replace (2 * s * c * (s / c)) with (2 * (s * s)) by (field; lra). lra.
  - replace (2 * s * c - s / c * (c * c - s * s)) with (s / c * (s * s + c * c)) by (field; lra). rewrite I. ring.
Qed.

(** The two centres, in the frame of the first edge. *)
Lemma corner_centers A Q B r t1 t2 : bent A Q B -> exists u e,
  dot u u = 1 /\ dot e e = 1 /\ dot u e = 0 /\ vsub Q A = smul (norm (vsub Q A)) u /\ 0 < turning A Q B < PI /\
  vsub B Q = smul (norm (vsub B Q)) (vadd (smul (cos (turning A Q B)) u) (smul (sin (turning A Q B)) e)) /\
  calc_centers (edge A Q) (edge Q B) r t1 t2 =
    Ok (vadd Q (vadd (smul (- ((1 - t1) * norm (vsub Q A))) u) (smul r e)),
        vadd Q (vadd (smul (t2 * norm (vsub B Q) * cos (turning A Q B) - r * sin (turning A Q B)) u)
                     (smul (t2 * norm (vsub B Q) * sin (turning A Q B) + r * cos (turning A Q B)) e))).
Proof.
  intros H. destruct (bent_nz _ _ _ H) as (N1 & N2).
  pose proof (norm_pos _ N1) as P1. pose proof (norm_pos _ N2) as P2.
  pose proof (normalize_eq _ N1) as E1. pose proof (normalize_eq _ N2) as E2.
  pose proof (normalize_dot _ N1) as U. pose proof (normalize_dot _ N2) as W.
  assert (TH : turning A Q B = angle_between (normalize (vsub Q A)) (normalize (vsub B Q))).
  { unfold turning, normalize. symmetry. apply C14_angle_scale_invariant; apply Rinv_0_lt_compat; assumption. }
  assert (NX : cross (normalize (vsub Q A)) (normalize (vsub B Q)) <> ORIGIN).
  { intros Z. apply H. rewrite E1, E2.
    transitivity (smul (norm (vsub Q A) * norm (vsub B Q)) (cross (normalize (vsub Q A)) (normalize (vsub B Q)))).
    - generalize (norm (vsub Q A)) (norm (vsub B Q)) (normalize (vsub Q A)) (normalize (vsub B Q)). clear. vec_ring.
    - rewrite Z. generalize (norm (vsub Q A) * norm (vsub B Q)). clear. vec_ring. }
  set (u := normalize (vsub Q A)) in *. set (v := normalize (vsub B Q)) in *.
  set (a := norm (vsub Q A)) in *. set (b := norm (vsub B Q)) in *.
  destruct (turn_frame u v U W NX) as (Z & ZU & T & CZ & EV). set (z := normalize (cross u v)) in *.
  rewrite <- TH in *. set (th := turning A Q B) in *.
  exists u, (cross z u).
  assert (EE : dot (cross z u) (cross z u) = 1) by (rewrite lagrange, Z, U, ZU; ring).
  assert (UE : dot u (cross z u) = 0) by (generalize z u; clear; vec_ring).
  split; [exact U|]. split; [exact EE|]. split; [exact UE|]. split; [exact E1|]. split; [exact T|].
  split; [rewrite <- EV; exact E2|].
  unfold calc_centers. rewrite !edge_eval, !edge_derivative. cbn [bind]. unfold centers_of.
  rewrite E1 at 1. rewrite normalize_r_axis by assumption. cbn [bind].
  rewrite E2 at 1. rewrite normalize_r_axis by assumption. cbn [bind].
  assert (S0 : 0 < sin th) by (apply sin_gt_0; lra).
  rewrite CZ. rewrite normalize_r_axis by assumption. cbn [bind].
  assert (A1 : vadd (smul (1 - t1) A) (smul t1 Q) = vadd Q (smul (- ((1 - t1) * a)) u)).
  { transitivity (vadd Q (smul (- (1 - t1)) (vsub Q A))); [clear; vec_ring|]. rewrite E1.
    f_equal. generalize a u. clear. vec_ring. }
  assert (B1 : vadd (smul (1 - t2) Q) (smul t2 B) = vadd Q (smul (t2 * b) v)).
  { transitivity (vadd Q (smul t2 (vsub B Q))); [clear; vec_ring|]. rewrite E2.
    f_equal. generalize b v. clear. vec_ring. }
  rewrite A1, B1.
  assert (X1 : cross u z = smul (-1) (cross z u)) by (generalize u z; clear; vec_ring).
  assert (X2 : cross v z = vadd (smul (sin th) u) (smul (- cos th) (cross z u))).
  { rewrite EV.
    assert (X3 : cross (cross z u) z = u).
    { rewrite cross_cross_l, Z, (dot_comm u z), ZU. clear. vec_ring. }
    transitivity (vadd (smul (cos th) (cross u z)) (smul (sin th) (cross (cross z u) z))).
    - generalize (cos th) (sin th) (cross z u) u z. clear. vec_ring.
    - rewrite X3, X1. generalize (cos th) (sin th) (cross z u) u. clear. vec_ring. }
  rewrite X1, X2. f_equal. f_equal.
  - generalize (- ((1 - t1) * a)) u (cross z u). clear. vec_ring.
  - rewrite EV at 1. generalize (cos th) (sin th) (cross z u) u. clear. vec_ring.
Qed.

(** ** C131 *)
(** The equation handed to [root] has exactly one solution. *)
Theorem C131_unique : forall A Q B r t1 t2, bent A Q B ->
  ((exists c, calc_centers (edge A Q) (edge Q B) r t1 t2 = Ok (c, c)) <->
   (1 - t1) * norm (vsub Q A) = tangent_length A Q B r /\ t2 * norm (vsub B Q) = tangent_length A Q B r).
Proof.
  intros A Q B r t1 t2 H. destruct (corner_centers A Q B r t1 t2 H) as (u & e & U & E & UE & _ & T & _ & CC).
  unfold tangent_length. destruct (half_angle _ T) as (H1 & H2).
  assert (S0 : 0 < sin (turning A Q B)) by (apply sin_gt_0; lra).
  set (X := (1 - t1) * norm (vsub Q A)) in *. set (Y := t2 * norm (vsub B Q)) in *.
  set (th := turning A Q B) in *. rewrite CC. clear CC. split.
  - intros [c EQ]. apply Ok_inj in EQ. injection EQ as C1 C2. rewrite <- C2 in C1. clear C2.
    assert (D : forall w, dot w (vsub (vadd Q (vadd (smul (- X) u) (smul r e))) Q) =
        dot w (vsub (vadd Q (vadd (smul (Y * cos th - r * sin th) u) (smul (Y * sin th + r * cos th) e))) Q)) by (intros; congruence).
    assert (Du : - X = Y * cos th - r * sin th).
    { assert (G : forall x y, dot u (vsub (vadd Q (vadd (smul x u) (smul y e))) Q) = x * dot u u + y * dot u e) by (clear; vec_ring).
      pose proof (D u) as DD. rewrite !G, U, UE in DD. lra. }
    assert (De : r = Y * sin th + r * cos th).
    { assert (G : forall x y, dot e (vsub (vadd Q (vadd (smul x u) (smul y e))) Q) = x * dot u e + y * dot e e) by (clear; vec_ring).
      pose proof (D e) as DD. rewrite !G, E, UE in DD. lra. }
    assert (YE : Y = r * tan (th / 2)).
    { apply Rmult_eq_reg_l with (sin th); [|lra]. transitivity (r * (sin th * tan (th / 2))); [rewrite H1; lra|ring]. }
    split; [|exact YE]. rewrite YE in Du.
    transitivity (r * (sin th - tan (th / 2) * cos th)); [lra|]. rewrite H2. reflexivity.
  - intros [EX EY].
    replace (Y * cos th - r * sin th) with (- X).
    2: { rewrite EX, EY. transitivity (- (r * (sin th - tan (th / 2) * cos th))); [rewrite H2|]; ring. }
    replace (Y * sin th + r * cos th) with r.
    2: { rewrite EY. transitivity (r * (sin th * tan (th / 2)) + r * cos th); [rewrite H1|]; ring. }
    eexists. reflexivity.
Qed.

(** The method MINDISTANCE: its cost is least exactly at that solution. *)
Theorem C131_min : forall A Q B r t1 t2, bent A Q B ->
  ((exists v, tangent_cost2 (edge A Q) (edge Q B) r t1 t2 = Ok v /\
     forall s1 s2 w, tangent_cost2 (edge A Q) (edge Q B) r s1 s2 = Ok w -> v <= w) <->
   (1 - t1) * norm (vsub Q A) = tangent_length A Q B r /\ t2 * norm (vsub B Q) = tangent_length A Q B r).
Proof.
  intros A Q B r t1 t2 H. destruct (bent_nz _ _ _ H) as (N1 & N2).
  pose proof (norm_pos _ N1) as P1. pose proof (norm_pos _ N2) as P2.
  rewrite <- C131_unique by exact H. unfold tangent_cost2. split.
  - intros (v & E & M).
    destruct (proj2 (C131_unique A Q B r (1 - tangent_length A Q B r / norm (vsub Q A)) (tangent_length A Q B r / norm (vsub B Q)) H))
      as (c & CC); [split; field; lra|].
    assert (V0 : v <= 0).
    { eapply M. rewrite CC. cbn [bind fst snd]. f_equal. generalize c. clear. vec_ring. }
    destruct (calc_centers (edge A Q) (edge Q B) r t1 t2) as [[c1 c2]|]; cbn [bind fst snd] in E; [|discriminate].
    apply Ok_inj in E. subst v. pose proof (dot_nonneg (vsub c1 c2)) as D.
    assert (Z : vsub c1 c2 = ORIGIN) by (apply dot_zero; lra).
    exists c2. f_equal. f_equal. rewrite <- (vadd_vsub c1 c2), Z. apply vadd_0_l.
  - intros (c & CC). exists 0. rewrite CC. cbn [bind fst snd]. split; [f_equal; generalize c; clear; vec_ring|].
    intros s1 s2 w E. destruct (calc_centers (edge A Q) (edge Q B) r s1 s2) as [[c1 c2]|]; cbn [bind fst snd] in E; [|discriminate].
    apply Ok_inj in E. subst w. apply dot_nonneg.
Qed.

Lemma tangent_pos A Q B r : bent A Q B -> 0 < r -> 0 < tangent_length A Q B r.
Proof.
  intros H R0. destruct (corner_centers A Q B r 0 0 H) as (_ & _ & _ & _ & _ & _ & T & _).
  unfold tangent_length. apply Rmult_lt_0_compat; [exact R0|]. apply tan_gt_0; lra.
Qed.

(** Edges in one line (or of length 0): no centres at all, whatever the places and the radius. *)
Theorem C131_straight : forall A Q B r t1 t2 c, ~ bent A Q B -> calc_centers (edge A Q) (edge Q B) r t1 t2 <> Ok c.
Proof.
  intros A Q B r t1 t2 [c1 c2] H EQ. apply H. intros Z. unfold calc_centers in EQ.
  rewrite !edge_eval, !edge_derivative in EQ. cbn [bind] in EQ. apply centers_ok in EQ.
  destruct EQ as (_ & _ & NX & _). apply NX. unfold normalize.
  transitivity (smul (/ norm (vsub Q A) * / norm (vsub B Q)) (cross (vsub Q A) (vsub B Q))).
  - generalize (/ norm (vsub Q A)) (/ norm (vsub B Q)) (vsub Q A) (vsub B Q). clear. vec_ring.
  - rewrite Z. generalize (/ norm (vsub Q A) * / norm (vsub B Q)). clear. vec_ring.
Qed.

(** With the solution: where the arc touches, its radius, and when the places are on the edges. *)
Theorem C131_arc : forall fs A Q B r ok x0 x1 c, bent A Q B -> 0 < r ->
  fs_tan fs (edge A Q) (edge Q B) r 1 0 0 = (ok, x0, x1) ->
  calc_centers (edge A Q) (edge Q B) r (1 - x0) (0 + x1) = Ok (c, c) ->
  exists f, calc_tangent_arc fs (edge A Q) (edge Q B) r 1 0 = Ok f /\
    let T := tangent_length A Q B r in
    c_eval (af_arc f) 0 = vsub Q (smul (T / norm (vsub Q A)) (vsub Q A)) /\
    c_eval (af_arc f) 1 = vadd Q (smul (T / norm (vsub B Q)) (vsub B Q)) /\
    (forall s, norm (vsub (c_eval (af_arc f) s) c) = r) /\
    c_length (af_arc f) = r * turning A Q B /\ af_ok f = ok /\
    (0 <= af_t1 f <= 1 <-> T <= norm (vsub Q A)) /\ (0 <= af_t2 f <= 1 <-> T <= norm (vsub B Q)).
Proof.
  intros fs A Q B r ok x0 x1 c H R0 FS CC. destruct (bent_nz _ _ _ H) as (N1 & N2).
  pose proof (norm_pos _ N1) as P1. pose proof (norm_pos _ N2) as P2.
  destruct (proj1 (C131_unique A Q B r (1 - x0) (0 + x1) H) (ex_intro _ c CC)) as (EX & EY).
  destruct (C88_tangent_arc _ _ _ _ _ _ _ _ _ c (edge_eval A Q (1 - x0)) (edge_eval Q B (0 + x1)) (edge_derivative A Q _)
    (edge_derivative Q B _) (Rgt_not_eq _ _ R0) CC) as (arc & th & TA & A0 & A1 & RD & _ & _ & TH & CT & LN & _).
  pose proof (tangent_pos A Q B r H R0) as TP. set (T := tangent_length A Q B r) in *.
  exists (mkAf arc (1 - x0) (0 + x1) ok). split; [unfold calc_tangent_arc; rewrite FS, TA; reflexivity|].
  cbn [af_arc af_t1 af_t2 af_ok]. cbv zeta.
  assert (X0 : x0 = T / norm (vsub Q A)) by (rewrite <- EX; field; lra).
  assert (X1 : x1 = T / norm (vsub B Q)) by (rewrite <- EY; field; lra).
  assert (F : forall n, 0 < n -> (T / n <= 1 <-> T <= n) /\ 0 < T / n).
  { intros n Hn. assert (Q1 : T / n * n = T) by (field; lra). split; [|apply Rdiv_lt_0_compat; assumption].
    split; intros G; [nra|]. apply Rmult_le_reg_r with n; [exact Hn|]. lra. }
  destruct (F _ P1) as (F1 & F1'). destruct (F _ P2) as (F2 & F2').
  assert (TE : th = turning A Q B).
  { assert (T2 : 0 < turning A Q B < PI) by (destruct (corner_centers A Q B r 0 0 H) as (_ & _ & _ & _ & _ & _ & T2 & _); exact T2).
    apply cos_inj; try lra. apply Rmult_eq_reg_l with (norm (vsub Q A) * norm (vsub B Q)); [|nra].
    rewrite CT. symmetry. apply (proj1 (C14_angle_cos_sin (vsub Q A) (vsub B Q))). }
  split; [|split; [|split; [|split; [|split; [reflexivity|split]]]]].
  - rewrite A0, <- X0. generalize x0. clear. vec_ring.
  - rewrite A1, <- X1. generalize x1. clear. vec_ring.
  - intros s. rewrite RD. apply Rabs_right. lra.
  - rewrite LN, TE, Rabs_right by lra. reflexivity.
  - rewrite <- F1, X0. lra.
  - rewrite <- F2, X1. lra.
Qed.

(** A right-angled corner with edges of length 1. *)
Definition cA : vec := V (-1) 0 0.
Definition cB : vec := V 0 1 0.
Lemma corner_turning : bent cA ORIGIN cB /\ turning cA ORIGIN cB = PI / 2 /\ norm (vsub ORIGIN cA) = 1 /\ norm (vsub cB ORIGIN) = 1.
Proof.
  assert (Q1 : vsub ORIGIN cA = RIGHT) by (unfold cA; apply vec_eq; vec_simpl; ring).
  assert (Q2 : vsub cB ORIGIN = UP) by (unfold cB; apply vec_eq; vec_simpl; ring).
  unfold bent, turning. rewrite Q1, Q2.
  assert (X : cross RIGHT UP = OUT) by (apply vec_eq; vec_simpl; ring).
  assert (NO : norm OUT = 1) by (apply norm_eq; [lra|vec_simpl; ring]).
  split; [|split; [|split]].
  - rewrite X. intros Z. rewrite Z, norm_ORIGIN in NO. lra.
  - unfold angle_between. rewrite X, NO. replace (dot RIGHT UP) with 0 by (vec_simpl; ring).
    unfold arctan2. destruct (Rlt_dec 0 0); [lra|]. destruct (Rlt_dec 0 0); [lra|]. destruct (Rlt_dec 0 1); lra.
  - apply norm_eq; [lra|vec_simpl; ring].
  - apply norm_eq; [lra|vec_simpl; ring].
Qed.
Lemma corner_tangent r : tangent_length cA ORIGIN cB r = r.
Proof.
  unfold tangent_length. destruct corner_turning as (_ & -> & _). replace (PI / 2 / 2) with (PI / 4) by field.
  rewrite tan_PI4. ring.
Qed.
Lemma corner_solved r : exists c, calc_centers (edge cA ORIGIN) (edge ORIGIN cB) r (1 - r) (0 + r) = Ok (c, c).
Proof.
  destruct corner_turning as (H & _ & L1 & L2). apply C131_unique; [exact H|]. rewrite corner_tangent, L1, L2. split; ring.
Qed.

(** A search that succeeds can still give places that are not on the edges, without an error: radius 2 at this corner. *)
Theorem C131_too_large_refuted : exists fs A Q B r f c, bent A Q B /\ 0 < r /\
  calc_tangent_arc fs (edge A Q) (edge Q B) r 1 0 = Ok f /\ af_ok f = true /\
  calc_centers (edge A Q) (edge Q B) r (af_t1 f) (af_t2 f) = Ok (c, c) /\ af_t1 f < 0 /\ 1 < af_t2 f.
Proof.
  destruct corner_turning as (H & _). destruct (corner_solved 2) as (c & CC).
  set (fs := mkFs (fun _ _ _ _ _ _ => (true, 2, 2)) (fun _ _ _ _ => (true, 0, 0)) (fun _ _ _ => (true, 0))).
  destruct (C88_tangent_arc _ _ _ _ _ _ _ _ _ c (edge_eval cA ORIGIN (1 - 2)) (edge_eval ORIGIN cB (0 + 2)) (edge_derivative cA ORIGIN _)
    (edge_derivative ORIGIN cB _) (Rgt_not_eq 2 0 ltac:(lra)) CC) as (arc & th & TA & _).
  exists fs, cA, ORIGIN, cB, 2, (mkAf arc (1 - 2) (0 + 2) true), c.
  split; [exact H|]. split; [lra|]. split.
  - unfold calc_tangent_arc. cbn [fs fs_tan]. rewrite TA. reflexivity.
  - cbn [af_ok af_t1 af_t2]. split; [reflexivity|]. split; [exact CC|]. lra.
Qed.

Example C131_unique_example : exists c, calc_centers (edge cA ORIGIN) (edge ORIGIN cB) (1 / 4) (3 / 4) (1 / 4) = Ok (c, c).
Proof.
  destruct corner_turning as (H & _ & L1 & L2). apply (C131_unique cA ORIGIN cB (1 / 4) (3 / 4) (1 / 4) H).
  rewrite corner_tangent, L1, L2. split; lra.
Qed.

Example C131_min_example : exists v, tangent_cost2 (edge cA ORIGIN) (edge ORIGIN cB) (1 / 4) (3 / 4) (1 / 4) = Ok v /\
  forall s1 s2 w, tangent_cost2 (edge cA ORIGIN) (edge ORIGIN cB) (1 / 4) s1 s2 = Ok w -> v <= w.
Proof.
  destruct corner_turning as (H & _ & L1 & L2). apply (C131_min cA ORIGIN cB (1 / 4) (3 / 4) (1 / 4) H).
  rewrite corner_tangent, L1, L2. split; lra.
Qed.

Example C131_straight_example : forall c,
  calc_centers (edge cA ORIGIN) (edge ORIGIN (V 3 0 0)) (1 / 4) (3 / 4) (1 / 4) <> Ok c.
Proof. intros c. apply C131_straight. intros H. apply H. unfold cA. apply vec_eq; vec_simpl; ring. Qed.

Example C131_arc_example : exists fs f, calc_tangent_arc fs (edge cA ORIGIN) (edge ORIGIN cB) (1 / 4) 1 0 = Ok f /\
  c_eval (af_arc f) 0 = V (- 1 / 4) 0 0 /\ c_eval (af_arc f) 1 = V 0 (1 / 4) 0 /\ 0 <= af_t1 f <= 1 /\ 0 <= af_t2 f <= 1.
Proof.
  destruct corner_turning as (H & _ & L1 & L2). destruct (corner_solved (1 / 4)) as (c & CC).
  set (fs := mkFs (fun _ _ _ _ _ _ => (true, 1 / 4, 1 / 4)) (fun _ _ _ _ => (true, 0, 0)) (fun _ _ _ => (true, 0))).
  destruct (C131_arc fs cA ORIGIN cB (1 / 4) true (1 / 4) (1 / 4) c H ltac:(lra) eq_refl CC) as (f & E & A0 & A1 & _ & _ & _ & I1 & I2).
  cbv zeta in *. rewrite corner_tangent, L1 in *. rewrite L2 in *.
  exists fs, f. split; [exact E|]. split; [rewrite A0; unfold cA; apply vec_eq; vec_simpl; field|].
  split; [rewrite A1; unfold cB; apply vec_eq; vec_simpl; field|]. split; [apply I1|apply I2]; lra.
Qed.

(** ** The corner as one chain, which is what CurveChain.fillet works on (fillet_curve, curve.py 998-1043) *)
Definition corner_path (A Q B : vec) : node := Chain true (map Prim [line_curve A Q true; line_curve Q B true]).
Definition path_length (A Q B : vec) : R := norm (vsub Q A) + norm (vsub B Q).

Lemma path_eval A Q B s : bent A Q B -> n_eval (corner_path A Q B) s =
  Ok (if Rle_dec (s * path_length A Q B) (norm (vsub Q A))
      then vadd Q (smul (s * path_length A Q B / norm (vsub Q A) - 1) (vsub Q A))
      else vadd Q (smul ((s * path_length A Q B - norm (vsub Q A)) / norm (vsub B Q)) (vsub B Q))).
Proof.
  intros H. destruct (bent_nz _ _ _ H) as (N1 & N2). pose proof (norm_pos _ N1) as P1. pose proof (norm_pos _ N2) as P2.
  pose proof (line_curve_length A Q) as L1. pose proof (line_curve_length Q B) as L2.
  set (l := [line_curve A Q true; line_curve Q B true]).
  assert (W : wf (Chain true (map Prim l))).
  { apply wf_chain. split.
    + change (0 < c_length (line_curve A Q true) + (c_length (line_curve Q B true) + 0)). lra.
    + constructor; [|constructor; [|constructor]]; intros _; [change (0 <= c_length (line_curve A Q true))|
        change (0 <= c_length (line_curve Q B true))]; lra. }
  unfold corner_path. fold l. rewrite C37_travel by exact W. f_equal.
  change (leaves_of (map Prim l)) with l.
  assert (T : total l = path_length A Q B) by (unfold total, l, path_length; cbn [map lsum]; rewrite L1, L2; ring).
  rewrite T. unfold l. cbn [walk]. rewrite L1. unfold local. rewrite L1, L2.
  set (a := norm (vsub Q A)) in *. set (b := norm (vsub B Q)) in *. set (x := s * path_length A Q B). clearbody a b x.
  destruct (Req_EM_T a 0); [lra|]. destruct (Req_EM_T b 0); [lra|].
  destruct (Rle_dec x a); rewrite line_eval; clear - P1 P2; repeat match goal with p : vec |- _ => destruct p end; apply vec_eq; vec_simpl; field; lra.
Qed.

(** Not within the step of the numerical derivative from the corner. *)
Definition off_corner (A Q B : vec) (t : R) : Prop := DELTA * path_length A Q B < Rabs (t * path_length A Q B - norm (vsub Q A)).

Lemma path_derivative A Q B s : bent A Q B -> off_corner A Q B s -> n_derivative (corner_path A Q B) s =
  Ok (if Rle_dec (s * path_length A Q B) (norm (vsub Q A))
      then smul (path_length A Q B / norm (vsub Q A)) (vsub Q A) else smul (path_length A Q B / norm (vsub B Q)) (vsub B Q)).
Proof.
  intros H O. destruct (bent_nz _ _ _ H) as (N1 & N2). pose proof (norm_pos _ N1) as P1. pose proof (norm_pos _ N2) as P2.
  unfold n_derivative. rewrite !path_eval by exact H. cbn [bind]. unfold off_corner in O.
  assert (LP : path_length A Q B = norm (vsub Q A) + norm (vsub B Q)) by reflexivity.
  set (L := path_length A Q B) in *. set (a := norm (vsub Q A)) in *. set (b := norm (vsub B Q)) in *.
  assert (DP : 0 < DELTA * L) by (apply Rmult_lt_0_compat; [unfold DELTA|]; lra).
  replace ((s + DELTA) * L) with (s * L + DELTA * L) by ring. replace ((s - DELTA) * L) with (s * L - DELTA * L) by ring.
  assert (D0 : DELTA <> 0) by (unfold DELTA; lra). set (d := DELTA) in *. clearbody d.
  unfold Rabs in O. destruct (Rcase_abs (s * L - a)) as [C|C];
  destruct (Rle_dec (s * L + d * L) a), (Rle_dec (s * L - d * L) a), (Rle_dec (s * L) a); try lra;
    f_equal; clear - D0 P1 P2; clearbody a b L; destruct A, Q, B; apply vec_eq; vec_simpl; field; lra.
Qed.

Lemma normalize_r_scale k d : 0 < k -> normalize_r (smul k d) = normalize_r d.
Proof.
  intros K. unfold normalize_r. rewrite norm_smul, Rabs_right by lra.
  destruct (Req_EM_T (norm d) 0) as [E|E], (Req_EM_T (k * norm d) 0) as [F|F]; try reflexivity; try (exfalso; nra).
  f_equal. apply normalize_scale; [exact K|]. intros Z. apply E. rewrite Z. apply norm_ORIGIN.
Qed.
Lemma centers_scale p1 p2 d1 d2 r k l : 0 < k -> 0 < l -> centers_of p1 p2 (smul k d1) (smul l d2) r = centers_of p1 p2 d1 d2 r.
Proof. intros. unfold centers_of. rewrite !normalize_r_scale by assumption. reflexivity. Qed.

(** Exchanging the places is the same as a negative radius. *)
Lemma centers_swap p1 p2 d1 d2 r c1 c2 : centers_of p1 p2 d1 d2 r = Ok (c1, c2) -> centers_of p2 p1 d2 d1 (- r) = Ok (c2, c1).
Proof.
  unfold centers_of. destruct (normalize_r d1) as [u|]; cbn [bind]; [|discriminate].
  destruct (normalize_r d2) as [v|]; cbn [bind]; [|discriminate].
  assert (X : cross v u = smul (-1) (cross u v)) by (generalize u v; clear; vec_ring).
  assert (N : normalize_r (cross v u) = match normalize_r (cross u v) with Ok w => Ok (smul (-1) w) | Err e => Err e end).
  { rewrite X. unfold normalize_r. rewrite norm_smul, Rabs_left by lra. replace (- (-1) * norm (cross u v)) with (norm (cross u v)) by ring.
    destruct (Req_EM_T (norm (cross u v)) 0); [reflexivity|]. f_equal. unfold normalize. rewrite norm_smul, Rabs_left by lra.
    replace (- (-1) * norm (cross u v)) with (norm (cross u v)) by ring. generalize (/ norm (cross u v)) (cross u v). clear. vec_ring. }
  rewrite N. destruct (normalize_r (cross u v)) as [w|]; cbn [bind]; [|discriminate].
  intros Q. apply Ok_inj in Q. injection Q as <- <-. f_equal. f_equal.
  - generalize p2 v w r. clear. vec_ring.
  - generalize p1 u w r. clear. vec_ring.
Qed.

Lemma edge_centers A Q B r s1 s2 : calc_centers (edge A Q) (edge Q B) r s1 s2 =
  centers_of (vadd Q (smul (s1 - 1) (vsub Q A))) (vadd Q (smul s2 (vsub B Q))) (vsub Q A) (vsub B Q) r.
Proof.
  unfold calc_centers. rewrite !edge_eval, !edge_derivative. cbn [bind]. f_equal; clear; vec_ring.
Qed.

Lemma centers_parallel p1 p2 d k l r c : centers_of p1 p2 (smul k d) (smul l d) r <> Ok c.
Proof.
  destruct c as [c1 c2]. intros E. apply centers_ok in E. destruct E as (_ & _ & NX & _). apply NX.
  unfold normalize. generalize (/ norm (smul k d)) (/ norm (smul l d)) d k l. clear. vec_ring.
Qed.

(** Off the corner, the chain has no other solution either: the first place is before the corner and the second after it,
    both at the tangent length. *)
Theorem C131_chain : forall A Q B r t1 t2, bent A Q B -> 0 < r -> off_corner A Q B t1 -> off_corner A Q B t2 ->
  ((exists c, calc_centers (corner_path A Q B) (corner_path A Q B) r t1 t2 = Ok (c, c)) <->
   norm (vsub Q A) - t1 * path_length A Q B = tangent_length A Q B r /\
   t2 * path_length A Q B - norm (vsub Q A) = tangent_length A Q B r).
Proof.
  intros A Q B r t1 t2 H R0 O1 O2. destruct (bent_nz _ _ _ H) as (N1 & N2).
  pose proof (norm_pos _ N1) as P1. pose proof (norm_pos _ N2) as P2. pose proof (tangent_pos A Q B r H R0) as TP.
  unfold calc_centers. rewrite !path_eval, !path_derivative by assumption. cbn [bind].
  assert (LP : 0 < path_length A Q B) by (unfold path_length; lra).
  set (L := path_length A Q B) in *.
  assert (K1 : 0 < L / norm (vsub Q A)) by (apply Rdiv_lt_0_compat; lra).
  assert (K2 : 0 < L / norm (vsub B Q)) by (apply Rdiv_lt_0_compat; lra).
  destruct (Rle_dec (t1 * L) (norm (vsub Q A))) as [B1|B1], (Rle_dec (t2 * L) (norm (vsub Q A))) as [B2|B2].
  - split; [intros [c E]; destruct (centers_parallel _ _ _ _ _ _ _ E)|]. intros [_ E]. lra.
  - rewrite centers_scale by assumption.
    pose proof (C131_unique A Q B r (t1 * L / norm (vsub Q A)) ((t2 * L - norm (vsub Q A)) / norm (vsub B Q)) H) as U.
    rewrite edge_centers in U. rewrite U. clear U.
    replace ((1 - t1 * L / norm (vsub Q A)) * norm (vsub Q A)) with (norm (vsub Q A) - t1 * L) by (field; lra).
    replace ((t2 * L - norm (vsub Q A)) / norm (vsub B Q) * norm (vsub B Q)) with (t2 * L - norm (vsub Q A)) by (field; lra).
    reflexivity.
  - split; [|intros [E _]; lra]. intros [c E]. exfalso. rewrite centers_scale in E by assumption. apply centers_swap in E.
    pose proof (proj1 (C131_unique A Q B (- r) (t2 * L / norm (vsub Q A)) ((t1 * L - norm (vsub Q A)) / norm (vsub B Q)) H)) as U.
    rewrite edge_centers in U. destruct (U (ex_intro _ c E)) as [_ Y].
    replace ((t1 * L - norm (vsub Q A)) / norm (vsub B Q) * norm (vsub B Q)) with (t1 * L - norm (vsub Q A)) in Y by (field; lra).
    unfold tangent_length in *. lra.
  - split; [intros [c E]; destruct (centers_parallel _ _ _ _ _ _ _ E)|]. intros [E _]. lra.
Qed.

Example C131_chain_example : exists c,
  calc_centers (corner_path cA ORIGIN cB) (corner_path cA ORIGIN cB) (1 / 4) (3 / 8) (5 / 8) = Ok (c, c).
Proof.
  destruct corner_turning as (H & _ & L1 & L2).
  assert (PL : path_length cA ORIGIN cB = 2) by (unfold path_length; rewrite L1, L2; ring).
  apply C131_chain; [exact H|lra| | |].
  - unfold off_corner. rewrite PL, L1. unfold DELTA. rewrite Rabs_left; lra.
  - unfold off_corner. rewrite PL, L1. unfold DELTA. rewrite Rabs_right; lra.
  - rewrite corner_tangent, PL, L1. split; lra.
Qed.

Lemma path_usable A Q B : bent A Q B -> usable (corner_path A Q B) /\ n_length (corner_path A Q B) = path_length A Q B.
Proof.
  intros H. destruct (bent_nz _ _ _ H) as (N1 & N2). pose proof (norm_pos _ N1) as P1. pose proof (norm_pos _ N2) as P2.
  pose proof (line_curve_length A Q) as L1. pose proof (line_curve_length Q B) as L2. split.
  - split; [reflexivity|]. split.
    + apply wf_chain. split.
      * change (0 < c_length (line_curve A Q true) + (c_length (line_curve Q B true) + 0)). lra.
      * constructor; [|constructor; [|constructor]]; intros _; [change (0 <= c_length (line_curve A Q true))|
          change (0 <= c_length (line_curve Q B true))]; lra.
    + constructor; [apply line_usable|constructor; [apply line_usable|constructor]].
  - change (c_length (line_curve A Q true) + (c_length (line_curve Q B true) + 0) = path_length A Q B).
    unfold path_length. rewrite L1, L2. ring.
Qed.

(** The places from which CurveChain.fillet starts its search at the corner are exchanged: they are never a solution. *)
Theorem C131_fillet_start : forall A Q B r c, bent A Q B -> 0 < r ->
  let P := corner_path A Q B in let location := norm (vsub Q A) / n_length P in
  DELTA * n_length P < r ->
  calc_centers P P r (location + r / n_length P) (location - r / n_length P) <> Ok (c, c).
Proof.
  intros A Q B r c H R0 P location D E. destruct (path_usable A Q B H) as (_ & LN). unfold location, P in *. rewrite LN in *.
  destruct (bent_nz _ _ _ H) as (N1 & N2). pose proof (norm_pos _ N1) as P1. pose proof (norm_pos _ N2) as P2.
  pose proof (tangent_pos A Q B r H R0) as TP.
  assert (LP : 0 < path_length A Q B) by (unfold path_length; lra).
  assert (Q1 : (norm (vsub Q A) / path_length A Q B + r / path_length A Q B) * path_length A Q B = norm (vsub Q A) + r) by (field; lra).
  assert (Q2 : (norm (vsub Q A) / path_length A Q B - r / path_length A Q B) * path_length A Q B = norm (vsub Q A) - r) by (field; lra).
  apply (ex_intro (fun c => calc_centers (corner_path A Q B) (corner_path A Q B) r _ _ = Ok (c, c)) c) in E.
  apply C131_chain in E; [|exact H|exact R0| |].
  - rewrite Q1, Q2 in E. lra.
  - unfold off_corner. rewrite Q1, Rabs_right; lra.
  - unfold off_corner. rewrite Q2, Rabs_left; lra.
Qed.

(** The filleted corner. *)
Theorem C131_fillet : forall fs A Q B r location f c, bent A Q B -> 0 < r ->
  let P := corner_path A Q B in let T := tangent_length A Q B r in
  fillet_curve fs P r (location + r / n_length P) (location - r / n_length P) = Ok f ->
  calc_centers P P r (af_t1 f) (af_t2 f) = Ok (c, c) -> off_corner A Q B (af_t1 f) -> off_corner A Q B (af_t2 f) ->
  exists m X Y, fillet fs P r location = Ok m /\ leaves m = X ++ af_arc f :: Y /\ X <> [] /\ Y <> [] /\ joined (leaves m) /\
    c_eval (af_arc f) 0 = vsub Q (smul (T / norm (vsub Q A)) (vsub Q A)) /\
    c_eval (af_arc f) 1 = vadd Q (smul (T / norm (vsub B Q)) (vsub B Q)) /\
    forall d, c_eval (hd d (leaves m)) 0 = A /\ c_eval (last (leaves m) d) 1 = B.
Proof.
  intros fs A Q B r location f c H R0 P T FC CC O1 O2. destruct (path_usable A Q B H) as (US & _).
  destruct (bent_nz _ _ _ H) as (N1 & N2). pose proof (norm_pos _ N1) as P1. pose proof (norm_pos _ N2) as P2.
  pose proof (tangent_pos A Q B r H R0) as TP. fold T in TP.
  assert (J : joined (leaves P)).
  { split; [|exact I]. rewrite !line_eval. clear. vec_ring. }
  assert (FL : flat (map Prim [line_curve A Q true; line_curve Q B true])) by (constructor; [eexists; reflexivity|constructor; [eexists; reflexivity|constructor]]).
  destruct (C88_fillet_chain fs _ r _ _ f c FL US J (Rgt_not_eq _ _ R0) FC CC) as (m & X & Y & FM & LM & NX & NY & JM & EN).
  destruct (exact_arc _ _ _ _ _ _ _ (fillet_curve_arc _ _ _ _ _ _ FC) (Rgt_not_eq _ _ R0) CC) as (E0 & E1 & _).
  destruct (proj1 (C131_chain A Q B r (af_t1 f) (af_t2 f) H R0 O1 O2) (ex_intro _ c CC)) as (D1 & D2). fold T in D1, D2.
  unfold P in E0, E1. rewrite path_eval in E0, E1 by exact H.
  destruct (Rle_dec (af_t1 f * path_length A Q B) (norm (vsub Q A))); [|lra].
  destruct (Rle_dec (af_t2 f * path_length A Q B) (norm (vsub Q A))); [lra|].
  apply Ok_inj in E0, E1.
  exists m, X, Y. split; [exact FM|]. split; [exact LM|]. split; [exact NX|]. split; [exact NY|]. split; [exact JM|].
  split; [|split].
  - rewrite <- E0. replace (af_t1 f * path_length A Q B) with (norm (vsub Q A) - T) by lra.
    replace ((norm (vsub Q A) - T) / norm (vsub Q A) - 1) with (- (T / norm (vsub Q A))) by (field; lra).
    generalize (T / norm (vsub Q A)). clear. vec_ring.
  - rewrite <- E1, D2. reflexivity.
  - intros d. destruct (EN d) as (_ & _ & S0 & S1).
    change (hd d (leaves (Chain true (map Prim [line_curve A Q true; line_curve Q B true])))) with (line_curve A Q true) in S0.
    change (last (leaves (Chain true (map Prim [line_curve A Q true; line_curve Q B true]))) d) with (line_curve Q B true) in S1.
    rewrite S0, S1, !line_eval. split; clear; vec_ring.
Qed.

Example C131_fillet_start_example : forall c, let P := corner_path cA ORIGIN cB in
  calc_centers P P (1 / 4) (norm (vsub ORIGIN cA) / n_length P + 1 / 4 / n_length P)
    (norm (vsub ORIGIN cA) / n_length P - 1 / 4 / n_length P) <> Ok (c, c).
Proof.
  intros c. destruct corner_turning as (H & _ & L1 & L2). destruct (path_usable cA ORIGIN cB H) as (_ & LN).
  apply C131_fillet_start; [exact H|lra|]. rewrite LN. unfold path_length, DELTA. rewrite L1, L2. lra.
Qed.

Example C131_fillet_example : exists fs m, fillet fs (corner_path cA ORIGIN cB) (1 / 4) (1 / 2) = Ok m /\ joined (leaves m) /\
  forall d, c_eval (hd d (leaves m)) 0 = cA /\ c_eval (last (leaves m) d) 1 = cB.
Proof.
  destruct corner_turning as (H & _ & L1 & L2). destruct C131_chain_example as (c & CC).
  assert (PL : path_length cA ORIGIN cB = 2) by (unfold path_length; rewrite L1, L2; ring).
  set (P := corner_path cA ORIGIN cB) in *. set (s1 := 1 / 2 + 1 / 4 / n_length P). set (s2 := 1 / 2 - 1 / 4 / n_length P).
  assert (O1 : off_corner cA ORIGIN cB (3 / 8)) by (unfold off_corner; rewrite PL, L1; unfold DELTA; rewrite Rabs_left; lra).
  assert (O2 : off_corner cA ORIGIN cB (5 / 8)) by (unfold off_corner; rewrite PL, L1; unfold DELTA; rewrite Rabs_right; lra).
  destruct (C88_tangent_arc P P (1 / 4) (3 / 8) (5 / 8) _ _ _ _ c (path_eval _ _ _ _ H) (path_eval _ _ _ _ H)
    (path_derivative _ _ _ _ H O1) (path_derivative _ _ _ _ H O2) (Rgt_not_eq (1 / 4) 0 ltac:(lra)) CC) as (arc & th & TA & _).
  assert (FC : fillet_curve corner_solver P (1 / 4) s1 s2 = Ok (mkAf arc (3 / 8) (5 / 8) true)).
  { unfold fillet_curve. cbn [corner_solver fs_tan fst].
    replace (s1 - (s1 - 3 / 8)) with (3 / 8) by ring. replace (s2 + (5 / 8 - s2)) with (5 / 8) by ring. rewrite TA. reflexivity. }
  destruct (C131_fillet corner_solver cA ORIGIN cB (1 / 4) (1 / 2) _ c H ltac:(lra) FC CC O1 O2) as (m & X & Y & FM & _ & _ & _ & J & _ & _ & E).
  exists corner_solver, m. auto.
Qed.
