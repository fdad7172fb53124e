(** Properties C53 (periodic, continuous tooth profile), C54 (closed profiles), C55 (boundary forms). *)
From Coq Require Import Nsatz Reals List ZArith Lra Lia Psatz Bool.
From Verif Require Import Num Vec Transform TransformProps Params Coords CoordsProps Interp Curve CurveLem CurveProps
  ArcLem ArcProps Chain ChainLem ChainProps RefLines RefLinesProps Profile ProfileLem.
Import ListNotations.
Open Scope R_scope.

(** ** Specification *)
(** Mirror image in the plane y = 0. *)
Definition flip (p : vec) : vec := V (vx p) (- vy p) (vz p).
(** Turned about the z axis. *)
Definition turn (a : R) (p : vec) : vec :=
  V (vx p * cos a - vy p * sin a) (vx p * sin a + vy p * cos a) (vz p).
(** Largest jump between consecutive curves. *)
Fixpoint joined_within (eps : R) (cs : list curve) : Prop :=
  match cs with
  | c :: ((d :: _) as r) => norm (vsub (c_eval c 1) (c_eval d 0)) <= eps /\ joined_within eps r
  | _ => True
  end.
(** What the flank must satisfy after trimming: an active curve or chain without pieces of zero length, continuous at
    its joints, with up-to-date length tables, no two consecutive ones of its 21 equidistant points equal. *)
Record flank_ok (t : node) : Prop := {
  fo_act : n_active t = true;
  fo_pos : Forall (fun c => 0 < c_length c) (leaves t);
  fo_ndiv : Forall (fun c => (2 <= c_ndiv c)%nat) (leaves t);
  fo_joined : joined (leaves t);
  fo_steps : forall i, (i < 20)%nat -> n_point t (INR i / 20) <> n_point t (INR (S i) / 20) }.

(** ** Lemmas *)
Lemma flip_mirror p : mirror_func (normalize UP) ORIGIN p = flip p.
Proof.
  replace (normalize UP) with UP.
  - unfold mirror_func, flip. destruct p. apply vec_eq; vec_simpl; ring.
  - symmetry. apply normalize_unit. vec_simpl. ring.
Qed.

Lemma turn_rotate a p : rotate_func (normalize OUT) a ORIGIN p = turn a p.
Proof.
  replace (normalize OUT) with OUT by (symmetry; apply normalize_unit; vec_simpl; ring).
  rewrite C35_rotate_OUT. unfold turn. destruct p. apply vec_eq; vec_simpl; ring.
Qed.

Lemma turn_rotz a p : turn a p = mapp (rotz a) p.
Proof. unfold turn. destruct p. apply vec_eq; vec_simpl; ring. Qed.

Lemma turn_turn a b p : turn a (turn b p) = turn (a + b) p.
Proof. unfold turn. cbn [vx vy vz]. rewrite cos_plus, sin_plus. apply vec_eq; cbn; ring. Qed.

Lemma turn_0 p : turn 0 p = p.
Proof. unfold turn. rewrite cos_0, sin_0. destruct p. apply vec_eq; cbn; ring. Qed.

Lemma turn_dist a p q : norm (vsub (turn a p) (turn a q)) = norm (vsub p q).
Proof.
  rewrite !turn_rotz. replace (vsub (mapp (rotz a) p) (mapp (rotz a) q)) with (mapp (rotz a) (vsub p q)) by vec_ring.
  apply orthogonal_norm, rotation_rotz.
Qed.

Lemma flip_dist p q : norm (vsub (flip p) (flip q)) = norm (vsub p q).
Proof. unfold norm. f_equal. destruct p, q. unfold flip. vec_simpl. ring. Qed.

Lemma vsub_eq0 p q : vsub p q = ORIGIN -> p = q.
Proof. intros E. rewrite <- (vadd_vsub p q), E. apply vadd_0_l. Qed.

Lemma leaves_wf t : n_active t = true -> Forall (fun c => 0 < c_length c) (leaves t) -> forall s,
  n_eval t s = Ok (n_point t s).
Proof.
  intros A P s. unfold n_point. destruct t as [c|a l]; [reflexivity|].
  rewrite C37_travel; [reflexivity|]. apply positive_wf; assumption.
Qed.

Lemma leaves_ends t d : n_active t = true -> Forall (fun c => 0 < c_length c) (leaves t) ->
  n_point t 0 = c_eval (hd d (leaves t)) 0 /\ n_point t 1 = c_eval (last (leaves t) d) 1.
Proof.
  intros A P. assert (NE : leaves t <> []) by (apply active_leaves, A).
  destruct t as [c|a l].
  - cbn in A. cbn [leaves] in *. rewrite A in *. cbn. split; reflexivity.
  - cbn [leaves] in *. destruct a; [|discriminate]. unfold n_point.
    destruct (C37_ends true l d) as (-> & ->); [split; assumption|]. split; reflexivity.
Qed.

Lemma NDIV_2 : (2 <= NDIV)%nat. Proof. unfold NDIV. lia. Qed.

(** The function of the mirror image. *)
Definition flip_fun (t : node) (s : R) : vec := flip (n_point t s).

Lemma n_mirrored_eq t : n_active t = true -> 
  c_shape (n_mirrored t UP ORIGIN) = SGen (fun s => mirror_func (normalize UP) ORIGIN (n_point t s)) /\
  n_mirrored t UP ORIGIN = new_curve (SGen (fun s => mirror_func (normalize UP) ORIGIN (n_point t s))) true 0 1 NDIV.
Proof. intros A. unfold n_mirrored, n_transformed. rewrite A. split; reflexivity. Qed.

Lemma mirror_incr t : flank_ok t -> forall f, (forall p q, norm (vsub (f p) (f q)) = norm (vsub p q)) ->
  incr (c_ss (new_curve (SGen (fun s => f (n_point t s))) true 0 1 NDIV)) /\
  incr (c_ss (new_curve (SGen (fun s => f (n_point t s))) true 1 0 NDIV)).
Proof.
  intros F f D.
  assert (INJ : forall p q, p <> q -> f p <> f q).
  { intros p q N E. apply N. apply vsub_eq0. apply norm_zero. rewrite <- D, E, vsub_diag. apply norm_ORIGIN. }
  assert (E20 : INR (NDIV - 1) = 20) by (unfold NDIV; cbn; lra).
  split; apply C28_distinct_samples_strict; try apply NDIV_2; intros i Hi; apply INJ; rewrite E20.
  - replace (0 + (1 - 0) * INR i / 20) with (INR i / 20) by field.
    replace (0 + (1 - 0) * INR (S i) / 20) with (INR (S i) / 20) by field.
    apply (fo_steps t F). unfold NDIV in Hi. lia.
  - intros E. apply (fo_steps t F (19 - i)); [lia|]. symmetry.
    unfold NDIV in Hi.
    replace (INR (S (19 - i)) / 20) with (1 + (0 - 1) * INR i / 20).
    + replace (INR (19 - i) / 20) with (1 + (0 - 1) * INR (S i) / 20); [exact E|].
      rewrite minus_INR by lia. rewrite S_INR. cbn. field.
    + rewrite S_INR, minus_INR by lia. cbn. field.
Qed.

Lemma sampled_length_pos f t0 t1 n : (2 <= n)%nat ->
  f (nth 0 (linspace t0 t1 n) 0) <> f (nth 1 (linspace t0 t1 n) 0) ->
  0 < c_length (new_curve (SGen f) true t0 t1 n).
Proof.
  intros Hn NE. unfold new_curve, update_lengths, c_fun. cbn [c_shape c_t0 c_t1 c_ndiv c_length]. rewrite shape_fun_gen.
  set (pts := map f (linspace t0 t1 n)).
  assert (L : length pts = n) by (unfold pts; rewrite map_length; apply linspace_length).
  assert (N0 : pts <> []) by (intros Z; rewrite Z in L; cbn in L; lia).
  pose proof (polylen_nondec 0 pts) as ND. rewrite last_nth, polylen_length, L.
  apply Rlt_le_trans with (nth 1 (polylen 0 pts) 0); [|apply nondec_nth; [exact ND|rewrite polylen_length; lia]].
  rewrite polylen_S by lia. rewrite polylen_0 by exact N0. unfold pts.
  rewrite !nth_map_fun by (rewrite linspace_length; lia). rewrite Rplus_0_l. apply norm_pos.
  intros Z. apply NE. symmetry. apply vsub_eq0. exact Z.
Qed.

(** The mirror image before and after the refresh by the profile chain. *)
Definition mirror_curve (t : node) : curve :=
  new_curve (SGen (fun s => mirror_func (normalize UP) ORIGIN (n_point t s))) true 1 0 NDIV.

Lemma flank_mirror_ends t : flank_ok t ->
  c_eval (flank_mirror t) 0 = flip (n_point t 1) /\ c_eval (flank_mirror t) 1 = flip (n_point t 0).
Proof.
  intros F. unfold flank_mirror. destruct (n_mirrored_eq t (fo_act t F)) as (_ & E).
  assert (D : forall p q, norm (vsub (mirror_func (normalize UP) ORIGIN p) (mirror_func (normalize UP) ORIGIN q)) = norm (vsub p q)).
  { intros p q. rewrite !flip_mirror. apply flip_dist. }
  destruct (mirror_incr t F _ D) as (I & _). rewrite E.
  set (f := fun s : R => mirror_func (normalize UP) ORIGIN (n_point t s)) in *.
  destruct (C30_swaps_ends (new_curve (SGen f) true 0 1 NDIV)) as (E0 & E1).
  - apply new_fresh.
  - apply NDIV_2.
  - intros (ps & ws & N). discriminate N.
  - exact I.
  - rewrite E0, E1, fresh_end, fresh_start by (try apply new_fresh; apply NDIV_2).
    change (f 1 = flip (n_point t 1) /\ f 0 = flip (n_point t 0)). unfold f. rewrite !flip_mirror. split; reflexivity.
Qed.

Lemma flank_mirror_fresh t : flank_ok t -> refresh_curve (flank_mirror t) = mirror_curve t.
Proof.
  intros F. unfold flank_mirror. destruct (n_mirrored_eq t (fo_act t F)) as (_ & E). rewrite E.
  unfold refresh_curve. replace (c_act (c_reverse _)) with true by reflexivity.
  unfold mirror_curve. unfold new_curve at 1. apply update_ext; reflexivity.
Qed.

Lemma mirror_curve_facts t : flank_ok t ->
  fresh (mirror_curve t) /\ c_act (mirror_curve t) = true /\ 0 < c_length (mirror_curve t) /\
  incr (c_ss (mirror_curve t)) /\
  c_eval (mirror_curve t) 0 = flip (n_point t 1) /\ c_eval (mirror_curve t) 1 = flip (n_point t 0).
Proof.
  intros F.
  assert (D : forall p q, norm (vsub (mirror_func (normalize UP) ORIGIN p) (mirror_func (normalize UP) ORIGIN q)) = norm (vsub p q)).
  { intros p q. rewrite !flip_mirror. apply flip_dist. }
  destruct (mirror_incr t F _ D) as (_ & I). fold (mirror_curve t) in I.
  split; [apply new_fresh|]. split; [reflexivity|]. split; [|split; [exact I|]].
  - apply sampled_length_pos; [apply NDIV_2|]. rewrite !linspace_nth by (unfold NDIV; lia).
    replace (INR (NDIV - 1)) with 20 by (unfold NDIV; cbn; lra). intros E.
    apply (f_equal (mirror_func (normalize UP) ORIGIN)) in E. rewrite !flip_mirror in E. 
    assert (FF : forall p, flip (flip p) = p) by (intros [x y z]; unfold flip; apply vec_eq; cbn; ring).
    rewrite !FF in E. apply (fo_steps t F 19); [lia|]. symmetry.
    replace (INR 20 / 20) with (1 + INR 0 * ((0 - 1) / 20)) by (cbn; field).
    replace (INR 19 / 20) with (1 + INR 1 * ((0 - 1) / 20)) by (cbn; field). exact E.
  - unfold mirror_curve. rewrite fresh_start, fresh_end by (try apply new_fresh; apply NDIV_2).
    unfold c_fun. cbn [new_curve update_lengths c_shape c_t0 c_t1]. rewrite shape_fun_gen, !flip_mirror. split; reflexivity.
Qed.

(** An arc about the z axis between two points at the same height and radius. *)
Lemma axis_arc p q : vz p = vz q -> vx p * vx p + vy p * vy p = vx q * vx q + vy q * vy q ->
  vx p * vy q - vy p * vx q <> 0 ->
  let c := from_2_point_center p q (axis_center p q) 0 true in
  fresh c /\ c_act c = true /\ 0 < c_length c /\ c_eval c 0 = p /\ c_eval c 1 = q /\
  (forall s, vcont (c_eval c) s).
Proof.
  intros Z N C c. set (ce := axis_center p q) in *.
  assert (CE : ce = V 0 0 (vz p)) by (unfold ce, axis_center; apply vec_eq; cbn; lra).
  assert (EN : norm (vsub p ce) = norm (vsub q ce)).
  { unfold norm. f_equal. rewrite CE. destruct p, q. cbn in Z, N. subst. vec_simpl. lra. }
  assert (CR : cross (vsub p ce) (vsub q ce) <> ORIGIN).
  { intros E. apply C. apply (f_equal vz) in E. revert E. rewrite CE. destruct p, q. vec_simpl. intros. lra. }
  destruct (C33_two_point_center p q ce 0 true EN CR) as (E0 & E1).
  destruct (C33_two_point_center_shape p q ce 0 true CR) as (th & m & SH & TH & _).
  change (from_2_point_center p q ce (IZR 0) true) with c in E0, E1, SH.
  assert (FR : fresh c /\ c_act c = true /\ exists r a yaw pitch roll, c = arc_curve r a ce yaw pitch roll true /\ 0 <= r).
  { unfold c, from_2_point_center, arc_from_frame. destruct (as_euler_zyx _) as [[yaw pitch] roll].
    split; [apply new_fresh|]. split; [reflexivity|]. do 5 eexists. split; [reflexivity|]. apply norm_nonneg. }
  destruct FR as (FR & AC & r & a & yaw & pitch & roll & EC & R0).
  assert (RP : 0 < norm (vsub p ce)).
  { apply norm_pos. intros E. apply CR. rewrite E. clear. destruct (vsub q ce). apply vec_eq; vec_simpl; ring. }
  destruct (fresh_arc c _ _ _ _ FR SH) as (_ & _ & LE).
  split; [exact FR|]. split; [exact AC|]. split; [|split; [exact E0|split; [exact E1|]]].
  - rewrite LE. apply Rmult_lt_0_compat; [exact RP|]. replace (th + 2 * 0 * PI) with th by ring.
    destruct TH as [TH _]. destruct TH as [TH|TH]; [exact TH|]. exfalso. subst th.
    assert (AZ : a = 0).
    { rewrite EC in SH. unfold arc_curve in SH. rewrite arc_new_shape in SH. injection SH as _ SA _. rewrite SA. ring. }
    assert (PQ : p = q).
    { apply vsub_eq0. apply norm_zero. apply Rle_antisym; [|apply norm_nonneg].
      rewrite <- E0, <- E1, EC. eapply Rle_trans; [apply C33_chord_bound, R0|]. rewrite AZ, Rabs_R0. lra. }
    apply C. rewrite PQ. ring.
  - intros s. rewrite EC. apply C37_arcs_continuous, R0.
Qed.

(** The two gaps to be closed: at the tip, between the flank and its mirror image, and at the root, between the
    mirror image turned back by one pitch and the flank. *)
Definition tip_gap (t : node) : R := norm (vsub (n_point t 1) (flip (n_point t 1))).
Definition root_gap (t : node) (pitch : R) : R :=
  norm (vsub (turn (- pitch) (flip (n_point t 0))) (n_point t 0)).
(** The ends do not lie opposite to each other: the tip is not above the axis, the root not a quarter turn away from
    the middle of the tooth gap. *)
Definition not_opposite (t : node) (pitch : R) : Prop :=
  vx (n_point t 1) <> 0 /\
  vx (n_point t 0) * cos (pitch / 2) - vy (n_point t 0) * sin (pitch / 2) <> 0.

Lemma tip_cross p : 0 < norm (vsub p (flip p)) -> vx p <> 0 -> vx p * vy (flip p) - vy p * vx (flip p) <> 0.
Proof.
  intros N X. assert (vy p <> 0).
  { intros Y. assert (E : flip p = p) by (destruct p; unfold flip; apply vec_eq; cbn in *; lra).
    rewrite E, vsub_diag, norm_ORIGIN in N. lra. }
  destruct p as [x y z]. unfold flip. cbn in *. intros E. assert (K : x * y = 0) by lra.
  destruct (Rmult_integral _ _ K); contradiction.
Qed.

Lemma root_cross p a : 0 < norm (vsub (turn (- a) (flip p)) p) ->
  vx p * cos (a / 2) - vy p * sin (a / 2) <> 0 ->
  vx (turn (- a) (flip p)) * vy p - vy (turn (- a) (flip p)) * vx p <> 0.
Proof.
  intros N A. set (h := a / 2) in *. assert (Ea : - a = - (h + h)) by (unfold h; field). rewrite Ea in *.
  set (B := vx p * sin h + vy p * cos h).
  assert (E : vsub (turn (- (h + h)) (flip p)) p = smul (- 2 * B) (V (sin h) (cos h) 0)).
  { unfold turn, flip. rewrite cos_neg, sin_neg, cos_plus, sin_plus. unfold B. pose proof (sc1 h) as S.
    destruct p as [x y z]. apply vec_eq; vec_simpl; nsatz. }
  assert (B0 : B <> 0).
  { intros Z. rewrite E, Z in N. replace (smul (-2 * 0) (V (sin h) (cos h) 0)) with ORIGIN in N
      by (apply vec_eq; vec_simpl; ring). rewrite norm_ORIGIN in N. lra. }
  intros K. assert (P : 2 * ((vx p * cos h - vy p * sin h) * B) = 0).
  { rewrite <- K. unfold turn, flip, B. rewrite cos_neg, sin_neg, cos_plus, sin_plus. pose proof (sc1 h) as S.
    destruct p as [x y z]. cbn. nsatz. }
  assert (P2 : (vx p * cos h - vy p * sin h) * B = 0) by lra.
  destruct (Rmult_integral _ _ P2); contradiction.
Qed.

(** ** C53 *)
Lemma closing_active p q ce r y : / 10000000000 < norm (vsub p q) ->
  closing_arc p q ce r y = from_2_point_center p q ce 0 true.
Proof. intros H. unfold closing_arc. destruct (Rlt_dec _ _); [reflexivity|contradiction]. Qed.
Lemma closing_inactive p q ce r y : norm (vsub p q) <= / 10000000000 ->
  closing_arc p q ce r y = arc_curve r 0 ce y 0 0 false.
Proof. intros H. unfold closing_arc. destruct (Rlt_dec _ _); [lra|reflexivity]. Qed.

(** The list of members of an optional closing arc. *)
Definition arc_if (c : curve) : list curve := if c_act c then [c] else [].

Lemma norm_swap p q : norm (vsub p q) = norm (vsub q p).
Proof. unfold norm. f_equal. destruct p, q. vec_simpl. ring. Qed.

(** Facts on one closing arc from [p] to [q]. *)
Lemma closing_facts p q ce r y : ce = axis_center p q -> vz p = vz q ->
  vx p * vx p + vy p * vy p = vx q * vx q + vy q * vy q ->
  (0 < norm (vsub p q) -> vx p * vy q - vy p * vx q <> 0) ->
  let c := closing_arc p q ce r y in
  Forall fresh (arc_if c) /\ Forall (fun c => 0 < c_length c) (arc_if c) /\
  Forall (fun c => forall s, vcont (c_eval c) s) (arc_if c) /\
  arc_if c = leaves (Prim c) /\ refresh (Prim c) = Prim c /\
  (norm (vsub p q) <= / 10000000000 -> arc_if c = []) /\
  (/ 10000000000 < norm (vsub p q) -> arc_if c = [c] /\ c_eval c 0 = p /\ c_eval c 1 = q).
Proof.
  intros -> Z N C c. assert (P : 0 < / 10000000000) by (apply Rinv_0_lt_compat; lra).
  destruct (Rlt_dec (/ 10000000000) (norm (vsub p q))) as [G|G].
  - assert (EC : c = from_2_point_center p q (axis_center p q) 0 true) by (apply closing_active, G).
    destruct (axis_arc p q Z N) as (F & A & L & E0 & E1 & V); [apply C; lra|]. rewrite <- EC in F, A, L, E0, E1, V.
    clearbody c. unfold arc_if, refresh. cbn [leaves n_active]. rewrite A.
    repeat split; try (repeat constructor; assumption); try assumption; try lra.
    cbn [n_update]. rewrite F. reflexivity.
  - assert (EC : c = arc_curve r 0 (axis_center p q) y 0 0 false) by (apply closing_inactive; lra).
    assert (A : c_act c = false) by (rewrite EC; reflexivity).
    clearbody c. unfold arc_if, refresh. cbn [leaves n_active]. rewrite A.
    repeat split; try constructor; lra.
Qed.

Lemma joined_app a b : a <> [] -> b <> [] -> joined a -> joined b ->
  (forall d, c_eval (last a d) 1 = c_eval (hd d b) 0) -> joined (a ++ b).
Proof.
  intros NA NB. induction a as [|x a IH]; [congruence|]. intros JA JB E.
  destruct a as [|y a].
  - destruct b as [|z b]; [congruence|]. cbn in *. split; [apply (E x)|exact JB].
  - change ((x :: y :: a) ++ b) with (x :: (y :: a) ++ b). destruct JA as [J1 J2].
    cbn [joined app]. split; [exact J1|]. apply IH; [discriminate|exact J2|exact JB|].
    intros d. exact (E d).
Qed.

Lemma joined_within_app eps a b : a <> [] -> b <> [] -> joined_within eps a -> joined_within eps b ->
  (forall d, norm (vsub (c_eval (last a d) 1) (c_eval (hd d b) 0)) <= eps) -> joined_within eps (a ++ b).
Proof.
  intros NA NB. induction a as [|x a IH]; [congruence|]. intros JA JB E.
  destruct a as [|y a].
  - destruct b as [|z b]; [congruence|]. cbn in *. split; [apply (E x)|exact JB].
  - change ((x :: y :: a) ++ b) with (x :: (y :: a) ++ b). destruct JA as [J1 J2].
    cbn [joined_within app]. split; [exact J1|]. apply IH; [discriminate|exact J2|exact JB|].
    intros d. exact (E d).
Qed.

Lemma joined_within_of eps cs : 0 <= eps -> joined cs -> joined_within eps cs.
Proof.
  intros He. induction cs as [|c cs IH]; [auto|]. destruct cs as [|d cs]; [auto|].
  intros [J1 J2]. split; [|apply IH, J2]. rewrite J1, vsub_diag, norm_ORIGIN. exact He.
Qed.

Lemma joined_within_0 cs : joined_within 0 cs -> joined cs.
Proof.
  induction cs as [|c cs IH]; [auto|]. destruct cs as [|d cs]; [auto|].
  intros [J1 J2]. split; [|apply IH, J2]. apply vsub_eq0, norm_zero, Rle_antisym; [exact J1|apply norm_nonneg].
Qed.

(** The assembled profile: its pieces in order are the root arc, the pieces of the flank, the tip arc and the mirror
    image, with arcs missing where the gap is at most 1e-10. *)
Record assembled (t : node) (pitch : R) (p : profile) : Prop := {
  as_tooth : pr_tooth p = t;
  as_mirror : pr_mirror p = mirror_curve t;
  as_pitch : pr_pitch p = pitch;
  as_rd : exists r y, pr_rd p = closing_arc (turn (- pitch) (flip (n_point t 0))) (n_point t 0)
                        (axis_center (turn (- pitch) (flip (n_point t 0))) (n_point t 0)) r y;
  as_ra : exists r y, pr_ra p = closing_arc (n_point t 1) (flip (n_point t 1))
                        (axis_center (n_point t 1) (flip (n_point t 1))) r y;
  as_ro : exists r a ce y, pr_ro p = arc_curve r a ce y 0 0 true }.

Lemma axis_center_comm a b : axis_center a b = axis_center b a.
Proof. unfold axis_center. f_equal. field. Qed.

Section Assembly.
  Variables (t : node) (pitch : R) (p : profile).
  Hypothesis F : flank_ok t.
  Hypothesis FR : Forall fresh (leaves t).
  Hypothesis NO : not_opposite t pitch.
  Hypothesis AS : assembled t pitch p.

  Let P0 := n_point t 0.
  Let P1 := n_point t 1.

  Lemma rd_facts : let c := pr_rd p in
    Forall fresh (arc_if c) /\ Forall (fun c => 0 < c_length c) (arc_if c) /\
    Forall (fun c => forall s, vcont (c_eval c) s) (arc_if c) /\
    arc_if c = leaves (Prim c) /\ refresh (Prim c) = Prim c /\
    (root_gap t pitch <= / 10000000000 -> arc_if c = []) /\
    (/ 10000000000 < root_gap t pitch -> arc_if c = [c] /\ c_eval c 0 = turn (- pitch) (flip P0) /\ c_eval c 1 = P0).
  Proof.
    destruct (as_rd t pitch p AS) as (r & y & ->). apply closing_facts.
    - reflexivity.
    - reflexivity.
    - unfold turn, flip. cbn [vx vy vz]. pose proof (sc1 (- pitch)) as S. nsatz.
    - intros N. apply root_cross; [exact N|apply NO].
  Qed.

  Lemma ra_facts : let c := pr_ra p in
    Forall fresh (arc_if c) /\ Forall (fun c => 0 < c_length c) (arc_if c) /\
    Forall (fun c => forall s, vcont (c_eval c) s) (arc_if c) /\
    arc_if c = leaves (Prim c) /\ refresh (Prim c) = Prim c /\
    (tip_gap t <= / 10000000000 -> arc_if c = []) /\
    (/ 10000000000 < tip_gap t -> arc_if c = [c] /\ c_eval c 0 = P1 /\ c_eval c 1 = flip P1).
  Proof.
    destruct (as_ra t pitch p AS) as (r & y & ->). apply closing_facts.
    - reflexivity.
    - reflexivity.
    - unfold P1. generalize (n_point t 1). intros q. unfold flip. cbn [vx vy vz]. ring.
    - intros N. apply tip_cross; [exact N|apply NO].
  Qed.

  Definition pieces : list curve := arc_if (pr_rd p) ++ leaves t ++ arc_if (pr_ra p) ++ [mirror_curve t].

  Lemma chain_pieces : pr_chain p = Chain true [Prim (pr_rd p); t; Prim (pr_ra p); Prim (mirror_curve t)] /\
    leaves_of [Prim (pr_rd p); t; Prim (pr_ra p); Prim (mirror_curve t)] = pieces.
  Proof.
    destruct rd_facts as (_ & _ & _ & L1 & R1 & _). destruct ra_facts as (_ & _ & _ & L2 & R2 & _).
    destruct (mirror_curve_facts t F) as (FM & AM & _).
    split.
    - unfold pr_chain. rewrite (as_tooth _ _ _ AS), (as_mirror _ _ _ AS). unfold new_chain.
      change (n_update (Chain true ?l)) with (Chain true (map refresh l)). cbn [map].
      assert (RM : refresh (Prim (mirror_curve t)) = Prim (mirror_curve t)).
      { unfold refresh. cbn [n_active]. rewrite AM. cbn [n_update]. rewrite FM. reflexivity. }
      rewrite R1, R2, RM, (refresh_id t FR). reflexivity.
    - unfold leaves_of, pieces. cbn [flat_map]. rewrite L1, L2. rewrite app_nil_r.
      change (leaves (Prim (mirror_curve t))) with [mirror_curve t]. reflexivity.
  Qed.

  Lemma pieces_positive : positive pieces.
  Proof.
    destruct rd_facts as (_ & P1' & _). destruct ra_facts as (_ & P2' & _).
    destruct (mirror_curve_facts t F) as (_ & _ & LM & _).
    split.
    - unfold pieces. intros E. apply app_eq_nil in E. destruct E as [_ E]. apply app_eq_nil in E. destruct E as [E _].
      pose proof (fo_act t F) as A. apply active_leaves in A. contradiction.
    - unfold pieces. repeat (apply Forall_app; split); auto. apply (fo_pos t F).
  Qed.

  Lemma flank_ends d : P0 = c_eval (hd d (leaves t)) 0 /\ P1 = c_eval (last (leaves t) d) 1.
  Proof. apply leaves_ends; apply F. Qed.

  Lemma flank_nonempty : leaves t <> [].
  Proof. apply active_leaves, F. Qed.

  Definition gaps_le (eps : R) : Prop :=
    0 <= eps /\ (root_gap t pitch <= / 10000000000 -> root_gap t pitch <= eps) /\
    (tip_gap t <= / 10000000000 -> tip_gap t <= eps).

  Lemma tooth_within eps : gaps_le eps -> joined_within eps (leaves t ++ arc_if (pr_ra p) ++ [mirror_curve t]).
  Proof.
    intros (EP & _ & ET). destruct (mirror_curve_facts t F) as (_ & _ & _ & _ & M0 & M1).
    apply joined_within_app.
    - exact flank_nonempty.
    - destruct (arc_if _); discriminate.
    - apply joined_within_of; [exact EP|apply F].
    - destruct ra_facts as (_ & _ & _ & _ & _ & S & G). destruct (Rlt_dec (/ 10000000000) (tip_gap t)) as [H|H].
      + destruct (G H) as (-> & _ & E1). split; [|exact I].
        rewrite E1, M0. unfold P1. rewrite vsub_diag, norm_ORIGIN. exact EP.
      + rewrite S by lra. exact I.
    - intros d. destruct (flank_ends d) as (_ & <-).
      destruct ra_facts as (_ & _ & _ & _ & _ & S & G). destruct (Rlt_dec (/ 10000000000) (tip_gap t)) as [H|H].
      + destruct (G H) as (-> & E0 & _). cbn [hd app]. rewrite E0, vsub_diag, norm_ORIGIN. exact EP.
      + rewrite S by lra. cbn [hd app]. rewrite M0. apply ET. lra.
  Qed.

  Lemma pieces_within eps : gaps_le eps -> joined_within eps pieces.
  Proof.
    intros GL. pose proof (tooth_within eps GL) as J2. destruct GL as (EP & _).
    pose proof flank_nonempty as NE.
    assert (HL : forall (l m : list curve) d, l <> [] -> hd d (l ++ m) = hd d l) by (intros [|] ? ? ?; [congruence|reflexivity]).
    unfold pieces. destruct rd_facts as (_ & _ & _ & _ & _ & S & G).
    destruct (Rlt_dec (/ 10000000000) (root_gap t pitch)) as [H|H].
    - destruct (G H) as (-> & _ & E1). apply joined_within_app.
      + discriminate.
      + intros E. apply app_eq_nil in E. tauto.
      + exact I.
      + exact J2.
      + intros d. rewrite HL by exact NE. destruct (flank_ends d) as (<- & _). cbn [last]. rewrite E1, vsub_diag, norm_ORIGIN. exact EP.
    - rewrite S by lra. exact J2.
  Qed.

  Lemma pieces_joined : / 10000000000 < root_gap t pitch -> / 10000000000 < tip_gap t -> joined pieces.
  Proof.
    intros H1 H2. apply joined_within_0. apply pieces_within. repeat split; lra.
  Qed.

  Lemma profile_ends :
    n_eval (pr_chain p) 1 = Ok (flip P0) /\
    (/ 10000000000 < root_gap t pitch -> n_eval (pr_chain p) 0 = Ok (turn (- pitch) (flip P0))) /\
    (root_gap t pitch <= / 10000000000 -> n_eval (pr_chain p) 0 = Ok P0).
  Proof.
    destruct chain_pieces as (EC & EL). rewrite EC.
    destruct (C37_ends true _ (mirror_curve t) ltac:(rewrite EL; exact pieces_positive)) as (E0 & E1).
    rewrite E0, E1, EL. destruct (mirror_curve_facts t F) as (_ & _ & _ & _ & M0 & M1).
    assert (LA : last pieces (mirror_curve t) = mirror_curve t).
    { unfold pieces. rewrite !app_assoc. apply last_last. }
    rewrite LA. split; [rewrite M1; reflexivity|].
    destruct rd_facts as (_ & _ & _ & _ & _ & S & G). split; intros H.
    - destruct (G H) as (ER & R0 & _). unfold pieces. rewrite ER. cbn [hd app]. rewrite R0. reflexivity.
    - unfold pieces. rewrite (S H). cbn [app]. destruct (flank_ends (mirror_curve t)) as (EF & _).
      pose proof flank_nonempty as NE. rewrite EF. destruct (leaves t); [congruence|reflexivity].
  Qed.
End Assembly.

(** The assembly succeeds for every flank as above. *)
Lemma assemble_ok t rc pitch : flank_ok t -> Forall fresh (leaves t) -> not_opposite t pitch ->
  exists p, assemble t rc pitch = Ok p /\ assembled t pitch p.
Proof.
  intros F FR NO. unfold assemble.
  destruct (flank_mirror_ends t F) as (M0 & M1).
  rewrite !(leaves_wf t (fo_act t F) (fo_pos t F)). cbn [bind]. rewrite M0, (refresh_id t FR), (flank_mirror_fresh t F).
  assert (RO : c_eval (n_rotated (Prim (flank_mirror t)) (- pitch) OUT ORIGIN) 1 = turn (- pitch) (flip (n_point t 0))).
  { unfold n_rotated, n_transformed. assert (A : n_active (Prim (flank_mirror t)) = true).
    { cbn [n_active]. unfold flank_mirror. destruct (n_mirrored_eq t (fo_act t F)) as (_ & ->). reflexivity. }
    rewrite A, fresh_end by (try apply new_fresh; apply NDIV_2). unfold c_fun. cbn [new_curve update_lengths c_shape c_t1].
    rewrite shape_fun_gen, turn_rotate. unfold n_point at 1. cbn [n_eval]. rewrite M1. reflexivity. }
  rewrite RO.
  set (rd := closing_arc (turn (- pitch) (flip (n_point t 0))) (n_point t 0) _ _ _).
  set (ra := closing_arc (n_point t 1) (flip (n_point t 1)) _ _ _).
  assert (EX : forall r a ce y, assembled t pitch (mkPr ra rd (arc_curve r a ce y 0 0 true) t (mirror_curve t) pitch g_default)).
  { intros ro. split; cbn [pr_tooth pr_mirror pr_pitch pr_rd pr_ra pr_ro]; try reflexivity.
    - rewrite axis_center_comm. do 2 eexists. reflexivity.
    - do 2 eexists. reflexivity.
    - do 4 eexists. reflexivity. }
  set (ro0 := arc_curve 1 1 ORIGIN 0 0 0 true).
  destruct (profile_ends t pitch _ F FR NO (EX 1 1 ORIGIN 0)) as (E1 & E0a & E0b).
  change (new_chain true [Prim rd; t; Prim ra; Prim (mirror_curve t)]) with
    (pr_chain (mkPr ra rd ro0 t (mirror_curve t) pitch g_default)).
  fold ro0 in E1, E0a, E0b. rewrite E1.
  assert (E0 : exists q, n_eval (pr_chain (mkPr ra rd ro0 t (mirror_curve t) pitch g_default)) 0 = Ok q).
  { destruct (Rlt_dec (/ 10000000000) (root_gap t pitch)) as [H|H]; eexists; [apply E0a, H|apply E0b; lra]. }
  destruct E0 as (q & ->). cbn [bind]. eexists. split; [reflexivity|]. apply EX.
Qed.

(** Whatever the solvers return: the profile ends where its start lies one pitch further, up to 1e-10, exactly if a
    root arc is needed; consecutive pieces meet up to 1e-10, exactly if both arcs are needed. *)
Theorem C53_profile sv tooth rc tipf rootf pitch t :
  Forall fresh (leaves tooth) -> trim_flank sv tooth rc tipf rootf pitch = Ok t ->
  flank_ok t -> not_opposite t pitch ->
  exists p a b, trim_reference_profile sv tooth rc tipf rootf pitch = Ok p /\
    n_eval (pr_chain p) 0 = Ok a /\ n_eval (pr_chain p) 1 = Ok b /\
    b = flip (n_point t 0) /\
    norm (vsub (turn pitch a) b) <= / 10000000000 /\
    (/ 10000000000 < root_gap t pitch -> b = turn pitch a) /\
    pr_tooth p = t /\ pr_pitch p = pitch /\
    joined_within (/ 10000000000) (leaves (pr_chain p)) /\
    (/ 10000000000 < root_gap t pitch -> / 10000000000 < tip_gap t -> joined (leaves (pr_chain p))).
Proof.
  intros FT TR F NO. pose proof (trim_leaves_fresh _ _ _ _ _ _ _ FT TR) as FR.
  destruct (assemble_ok t rc pitch F FR NO) as (p & EP & AS).
  destruct (profile_ends t pitch p F FR NO AS) as (E1 & E0a & E0b).
  destruct (chain_pieces t pitch p F FR NO AS) as (EC & EL).
  assert (LV : leaves (pr_chain p) = pieces t p) by (rewrite EC; exact EL).
  assert (UN : forall q, turn pitch (turn (- pitch) q) = q).
  { intros q. rewrite turn_turn, Rplus_opp_r. apply turn_0. }
  exists p. rewrite LV, E1.
  destruct (Rlt_dec (/ 10000000000) (root_gap t pitch)) as [H|H].
  - exists (turn (- pitch) (flip (n_point t 0))), (flip (n_point t 0)).
    assert (E10 : 0 < / 10000000000) by (apply Rinv_0_lt_compat; lra).
    split; [unfold trim_reference_profile; rewrite TR; exact EP|].
    split; [apply E0a, H|]. split; [reflexivity|]. split; [reflexivity|]. rewrite UN. split; [rewrite vsub_diag, norm_ORIGIN; lra|].
    split; [reflexivity|]. split; [apply (as_tooth _ _ _ AS)|]. split; [apply (as_pitch _ _ _ AS)|].
    split; [apply (pieces_within t pitch); try assumption; repeat split; lra|]. intros. apply (pieces_joined t pitch); assumption.
  - exists (n_point t 0), (flip (n_point t 0)).
    split; [unfold trim_reference_profile; rewrite TR; exact EP|].
    split; [apply E0b; lra|]. split; [reflexivity|]. split; [reflexivity|].
    split.
    { rewrite <- (UN (flip (n_point t 0))), turn_dist, norm_swap. apply Rnot_lt_le, H. }
    split; [contradiction|]. split; [apply (as_tooth _ _ _ AS)|]. split; [apply (as_pitch _ _ _ AS)|].
    split; [apply (pieces_within t pitch); try assumption; repeat split; lra|]. intros; contradiction.
Qed.

Lemma n_point_cont t : n_active t = true -> Forall (fun c => 0 < c_length c) (leaves t) -> joined (leaves t) ->
  Forall (fun c => forall s, vcont (c_eval c) s) (leaves t) -> forall s, vcont (n_point t) s.
Proof.
  intros A P J C s. pose proof (proj1 (active_leaves t) A) as NE. destruct t as [c|a l].
  - cbn in A, C. rewrite A in C. inversion C as [|? ? H _]; subst. apply H.
  - cbn [n_active] in A. assert (EL : leaves (Chain a l) = leaves_of l) by (cbn [leaves]; destruct a; [reflexivity|discriminate]).
    rewrite EL in P, J, C, NE. intros eps He.
    destruct (C37_continuous a l s (conj NE P) J C eps He) as (d & Hd & D). exists d. split; [exact Hd|].
    intros y Hy. destruct (D y Hy) as (p & q & E0 & E1 & N). unfold n_point. rewrite E0, E1. exact N.
Qed.

(** With continuous flank pieces and both arcs needed the profile is continuous. *)
Theorem C53_continuous sv tooth rc tipf rootf pitch t p :
  Forall fresh (leaves tooth) -> trim_flank sv tooth rc tipf rootf pitch = Ok t ->
  flank_ok t -> not_opposite t pitch -> / 10000000000 < root_gap t pitch -> / 10000000000 < tip_gap t ->
  Forall (fun c => forall s, vcont (c_eval c) s) (leaves t) ->
  trim_reference_profile sv tooth rc tipf rootf pitch = Ok p ->
  forall s, vcont (n_point (pr_chain p)) s.
Proof.
  intros FT TR F NO G0 G1 C EP. pose proof (trim_leaves_fresh _ _ _ _ _ _ _ FT TR) as FR.
  destruct (assemble_ok t rc pitch F FR NO) as (p' & EP' & AS).
  unfold trim_reference_profile in EP. rewrite TR in EP. cbn [bind] in EP. rewrite EP in EP'. injection EP' as <-.
  destruct (chain_pieces t pitch p F FR NO AS) as (EC & EL).
  assert (LV : leaves (pr_chain p) = pieces t p) by (rewrite EC; exact EL).
  pose proof (pieces_positive t pitch p F NO AS) as [PN PP].
  apply n_point_cont; rewrite ?LV.
  - apply active_leaves. rewrite LV. exact PN.
  - exact PP.
  - apply (pieces_joined t pitch); assumption.
  - destruct (rd_facts t pitch p NO AS) as (_ & _ & C1 & _). destruct (ra_facts t pitch p NO AS) as (_ & _ & C2 & _).
    unfold pieces. repeat (apply Forall_app; split); auto. constructor; [|constructor].
    destruct (mirror_curve_facts t F) as (FM & _ & _ & IM & _). apply eval_cont; try assumption; [apply NDIV_2|].
    intros s. unfold c_fun, mirror_curve. cbn [new_curve update_lengths c_shape]. rewrite shape_fun_gen.
    apply vcont_ext with (fun s => flip (n_point t s)); [intros y; symmetry; apply flip_mirror|].
    apply (vcont_map flip (n_point t) 1); [lra|intros; rewrite flip_dist; lra|].
    apply n_point_cont; try apply F. exact C.
Qed.

(** A continuous profile ending one pitch after its start repeats to a continuous boundary. *)
Lemma repeat_cont P pitch : (forall s, vcont P s) -> P 1 = turn pitch (P 0) ->
  forall u, vcont (fun u => turn (IZR (floorZ u) * pitch) (P (u - IZR (floorZ u)))) u.
Proof.
  intros C E u. set (k := floorZ u). pose proof (floorZ_bound u) as B. fold k in B.
  set (g := fun y => if Rle_dec y (IZR k) then turn ((IZR k - 1) * pitch) (P (y / 1 - (IZR k - 1)))
                     else turn (IZR k * pitch) (P (y / 1 - IZR k))).
  assert (T : forall a (f : R -> vec) x, vcont f x -> vcont (fun y => turn a (f y)) x).
  { intros a f x H. apply (vcont_map (turn a) f 1); [lra|intros; rewrite turn_dist; lra|exact H]. }
  assert (AT : turn ((IZR k - 1) * pitch) (P (IZR k / 1 - (IZR k - 1))) = turn (IZR k * pitch) (P (IZR k / 1 - IZR k))).
  { replace (IZR k / 1 - (IZR k - 1)) with 1 by field. replace (IZR k / 1 - IZR k) with 0 by field.
    rewrite E, turn_turn. f_equal. ring. }
  assert (G : vcont g u).
  { unfold g. apply (vcont_paste (fun y => turn ((IZR k - 1) * pitch) (P (y / 1 - (IZR k - 1))))
      (fun y => turn (IZR k * pitch) (P (y / 1 - IZR k)))).
    - exact AT.
    - intros y. apply T. apply (vcont_affine P); [lra|apply C].
    - intros y. apply T. apply (vcont_affine P); [lra|apply C]. }
  assert (EQ : forall y, IZR k - 1 <= y < IZR k + 1 -> turn (IZR (floorZ y) * pitch) (P (y - IZR (floorZ y))) = g y).
  { intros y Hy. unfold g. destruct (Rle_dec y (IZR k)) as [H|H].
    - destruct H as [H|H].
      + rewrite (floorZ_unique y (k - 1)) by (rewrite minus_IZR; lra). rewrite minus_IZR. do 2 f_equal. field.
      + subst y. rewrite floorZ_IZR, AT. do 2 f_equal. field.
    - rewrite (floorZ_unique y k) by lra. do 2 f_equal. field. }
  intros eps He. destruct (G eps He) as (d & Hd & D). exists (Rmin d (IZR k + 1 - u)).
  split; [apply Rmin_pos; lra|]. intros y Hy.
  assert (H1 : Rabs (y - u) < d) by (eapply Rlt_le_trans; [exact Hy|apply Rmin_l]).
  assert (H2 : Rabs (y - u) < IZR k + 1 - u) by (eapply Rlt_le_trans; [exact Hy|apply Rmin_r]).
  apply Rabs_def2 in H2. rewrite (EQ u), (EQ y) by lra. apply D, H1.
Qed.

(** The boundary of the gear (core 775-794) is continuous, and it closes after one turn: [N] teeth of pitch
    2 pi / N. *)
Theorem C53_boundary sv tooth rc tipf rootf pitch t p n :
  Forall fresh (leaves tooth) -> trim_flank sv tooth rc tipf rootf pitch = Ok t ->
  flank_ok t -> not_opposite t pitch -> / 10000000000 < root_gap t pitch -> / 10000000000 < tip_gap t ->
  Forall (fun c => forall s, vcont (c_eval c) s) (leaves t) ->
  trim_reference_profile sv tooth rc tipf rootf pitch = Ok p -> 0 < n ->
  forall s, vcont (boundary_fun p pitch n) s.
Proof.
  intros FT TR F NO G0 G1 C EP N s.
  assert (PC := C53_continuous sv tooth rc tipf rootf pitch t p FT TR F NO G0 G1 C EP).
  destruct (C53_profile sv tooth rc tipf rootf pitch t FT TR F NO) as (p' & a & b & EP' & E0 & E1 & _ & _ & PE & _).
  rewrite EP in EP'. injection EP' as <-.
  assert (PT : n_point (pr_chain p) 1 = turn pitch (n_point (pr_chain p) 0)).
  { unfold n_point. rewrite E0, E1. apply PE, G0. }
  apply vcont_ext with (fun y => (fun u => turn (IZR (floorZ u) * pitch) (n_point (pr_chain p) (u - IZR (floorZ u)))) (y / (/ n) - 0)).
  - intros y. unfold boundary_fun. cbv beta. replace (y / / n - 0) with (y * n) by (field; lra). rewrite turn_rotz. reflexivity.
  - apply (vcont_affine (fun u => turn (IZR (floorZ u) * pitch) (n_point (pr_chain p) (u - IZR (floorZ u)))));
      [apply Rinv_0_lt_compat, N|]. apply repeat_cont; assumption.
Qed.

Theorem C53_closed p N s : (0 < N)%Z ->
  boundary_fun p (2 * PI / IZR N) (IZR N) (s + 1) = boundary_fun p (2 * PI / IZR N) (IZR N) s.
Proof.
  intros H. apply IZR_lt in H. unfold boundary_fun.
  replace ((s + 1) * IZR N) with (s * IZR N + IZR N) by ring. rewrite floorZ_add, plus_IZR.
  replace (s * IZR N + IZR N - (IZR (floorZ (s * IZR N)) + IZR N)) with (s * IZR N - IZR (floorZ (s * IZR N))) by ring.
  replace ((IZR (floorZ (s * IZR N)) + IZR N) * (2 * PI / IZR N)) with
    (IZR (floorZ (s * IZR N)) * (2 * PI / IZR N) + 2 * PI) by (field; lra).
  rewrite <- !turn_rotz. unfold turn. rewrite cos_plus, sin_plus, cos_2PI, sin_2PI. apply vec_eq; cbn [vx vy vz]; ring.
Qed.

(** Each tooth of the boundary is the profile turned by a multiple of the pitch. *)
Theorem C53_teeth p pitch n i s : 0 < n -> 0 <= s < 1 ->
  boundary_fun p pitch n ((INR i + s) / n) = turn (INR i * pitch) (n_point (pr_chain p) s).
Proof.
  intros N S. unfold boundary_fun. replace ((INR i + s) / n * n) with (INR i + s) by (field; lra).
  rewrite INR_IZR_INZ. rewrite (floorZ_unique (IZR (Z.of_nat i) + s) (Z.of_nat i)) by lra.
  rewrite turn_rotz. do 2 f_equal. ring.
Qed.

(** *** A flank of a gear with four teeth *)
Definition ex_flank : node := Prim (line_curve (V 9 (-2) 0) (V 11 (-1) 0) true).
Definition ex_solver : solver :=
  mkSv (fun _ _ _ g _ => (true, if Rlt_dec (1 / 2) g then 1 else 0, 0)) (fun _ _ _ => 0) (fun _ _ => 0).
Definition ex_circles : ref_circles :=
  let c := arc_curve 10 (PI / 2) ORIGIN 0 0 0 true in mkRC c c c c.

Lemma ex_flank_length : c_length (line_curve (V 9 (-2) 0) (V 11 (-1) 0) true) = sqrt 5.
Proof.
  destruct (fresh_line (line_curve (V 9 (-2) 0) (V 11 (-1) 0) true) _ _ ltac:(apply new_fresh) eq_refl) as (_ & _ & ->).
  cbn [c_t0 c_t1 line_curve new_curve update_lengths with_domain]. 
  replace (Rabs _) with 1 by (cbn; rewrite Rabs_right; lra). rewrite Rmult_1_r. unfold norm. f_equal. vec_simpl. ring.
Qed.

Lemma ex_flank_point s : n_point ex_flank s = V (9 + 2 * s) (- 2 + s) 0.
Proof. unfold n_point, ex_flank. cbn [n_eval]. rewrite line_eval. apply vec_eq; vec_simpl; ring. Qed.

Lemma ex_flank_ok : flank_ok ex_flank.
Proof.
  split.
  - reflexivity.
  - repeat constructor. rewrite ex_flank_length. apply sqrt_lt_R0. lra.
  - constructor; [apply NDIV_2|constructor].
  - exact I.
  - intros i _. rewrite !ex_flank_point, S_INR. intros E. apply (f_equal vy) in E. cbn [vy] in E. lra.
Qed.

Lemma ex_trim rc : trim_flank ex_solver ex_flank rc 0 0 (PI / 2) = Ok ex_flank.
Proof.
  assert (L1 : set_end_on (line_curve (V 9 (-2) 0) (V 11 (-1) 0) true) 1 = line_curve (V 9 (-2) 0) (V 11 (-1) 0) true).
  { unfold set_end_on. rewrite s2t_two_points by reflexivity. replace (_ + _) with 1 by (cbn; ring).
    unfold line_curve, new_curve. apply update_ext; reflexivity. }
  assert (L2 : set_start_on (line_curve (V 9 (-2) 0) (V 11 (-1) 0) true) 0 = line_curve (V 9 (-2) 0) (V 11 (-1) 0) true).
  { unfold set_start_on. rewrite s2t_two_points by reflexivity. replace (_ + _) with 0 by (cbn; ring).
    unfold line_curve, new_curve. apply update_ext; reflexivity. }
  unfold trim_flank, trim_tip. destruct (Rlt_dec 0 0); [lra|]. cbn [ex_solver sv_meet fst].
  destruct (Rlt_dec (1 / 2) (9 / 10)); [|lra]. 
  assert (E : forall s, n_eval ex_flank s = Ok (V (9 + 2 * s) (- 2 + s) 0)).
  { intros s. pose proof (ex_flank_point s) as H. unfold n_point in H. unfold ex_flank in *. cbn [n_eval] in *. rewrite H. reflexivity. }
  cbv beta iota zeta. rewrite E. cbn [bind orb andb vy]. unfold lt_b at 1. destruct (Rlt_dec (-2 + 1) 0); [|lra].
  unfold ex_flank at 1. cbn [n_set_end]. rewrite L1. fold ex_flank. cbn [bind].
  unfold trim_root. destruct (Rlt_dec 0 0); [lra|]. cbn [ex_solver sv_meet].
  destruct (Rlt_dec (1 / 2) (3 / 10)); [lra|]. destruct (Rlt_dec (1 / 2) 0); [lra|].
  cbv beta iota zeta. rewrite !E. cbn [bind orb andb vx vy]. unfold lt_b at 1.
  destruct (Rlt_dec (- (PI / 2) / 2) (arctan2 (-2 + 0) (9 + 2 * 0))) as [H|H].
  - unfold ex_flank at 1. cbn [n_set_start]. rewrite L2. reflexivity.
  - exfalso. apply H. unfold arctan2. destruct (Rlt_dec 0 (9 + 2 * 0)); [|lra].
    replace (- (PI / 2) / 2) with (atan (-1)).
    + apply atan_increasing. lra.
    + replace (-1) with (- (1)) by ring. rewrite atan_opp, atan_1. field.
Qed.

Lemma ex_not_opposite : not_opposite ex_flank (PI / 2).
Proof.
  split; rewrite ex_flank_point; cbn [vx vy]; [lra|].
  replace (PI / 2 / 2) with (PI / 4) by field. rewrite cos_PI4, sin_PI4.
  assert (0 < 1 / sqrt 2) by (apply Rdiv_lt_0_compat; [lra|apply sqrt_lt_R0; lra]). lra.
Qed.

Lemma ex_root_gap : / 10000000000 < root_gap ex_flank (PI / 2).
Proof.
  unfold root_gap. rewrite ex_flank_point. unfold turn, flip. cbn [vx vy vz]. rewrite cos_neg, sin_neg, cos_PI2, sin_PI2.
  apply Rlt_le_trans with 7; [lra|]. apply Rle_trans with (sqrt (7 * 7)); [rewrite sqrt_square; lra|].
  unfold norm. apply sqrt_le_1_alt. vec_simpl. lra.
Qed.

Lemma ex_tip_gap : / 10000000000 < tip_gap ex_flank.
Proof.
  unfold tip_gap. rewrite ex_flank_point. unfold flip. cbn [vx vy vz].
  apply Rlt_le_trans with 2; [lra|]. apply Rle_trans with (sqrt (2 * 2)); [rewrite sqrt_square; lra|].
  unfold norm. apply sqrt_le_1_alt. vec_simpl. lra.
Qed.

Example C53_example : exists p,
  trim_reference_profile ex_solver ex_flank ex_circles 0 0 (PI / 2) = Ok p /\
  (forall s, vcont (boundary_fun p (PI / 2) 4) s) /\
  (forall s, boundary_fun p (PI / 2) 4 (s + 1) = boundary_fun p (PI / 2) 4 s).
Proof.
  assert (FR : Forall fresh (leaves ex_flank)) by (constructor; [apply new_fresh|constructor]).
  destruct (C53_profile ex_solver ex_flank ex_circles 0 0 (PI / 2) ex_flank FR (ex_trim _) ex_flank_ok ex_not_opposite)
    as (p & a & b & EP & _). exists p. split; [exact EP|]. split.
  - apply (C53_boundary ex_solver ex_flank ex_circles 0 0 (PI / 2) ex_flank); auto using ex_trim, ex_flank_ok, ex_not_opposite, ex_root_gap, ex_tip_gap.
    + constructor; [intros s; apply C37_lines_continuous|constructor].
    + lra.
  - intros s. pose proof (C53_closed p 4 s ltac:(lia)) as H. replace (2 * PI / 4) with (PI / 2) in H by field. exact H.
Qed.

(** ** C54 *)
(** A loop: consecutive pieces meet, and the last one ends where the first one starts, up to [eps]. *)
Definition closed_within (eps : R) (cs : list curve) : Prop :=
  cs <> [] /\ joined_within eps cs /\
  forall d, norm (vsub (c_eval (last cs d) 1) (c_eval (hd d cs) 0)) <= eps.
(** A connector to the outside ring is well-posed: a line always; an arc about the apex if its ends are at the same
    distance from the apex and not in line with it. *)
Definition connectable (ca : R) (apex p q : vec) : Prop :=
  ca = 0 \/ (norm (vsub p apex) = norm (vsub q apex) /\ cross (vsub p apex) (vsub q apex) <> ORIGIN).

(** A sampled curve in order, with ends [p] and [q]. *)
Record runs (c : curve) (p q : vec) : Prop := {
  ru_fresh : fresh c; ru_act : c_act c = true; ru_ndiv : (2 <= c_ndiv c)%nat; ru_nurb : ~ is_nurb c;
  ru_0 : c_eval c 0 = p; ru_1 : c_eval c 1 = q }.

Lemma two_point_runs p q ce : norm (vsub p ce) = norm (vsub q ce) -> cross (vsub p ce) (vsub q ce) <> ORIGIN ->
  runs (from_2_point_center p q ce 0 true) p q.
Proof.
  intros N C. destruct (C33_two_point_center p q ce 0 true N C) as (E0 & E1).
  destruct (C33_two_point_center_shape p q ce 0 true C) as (th & m & SH & _).
  split; try assumption.
  - unfold from_2_point_center, arc_from_frame. destruct (as_euler_zyx _) as [[? ?] ?]. apply new_fresh.
  - unfold from_2_point_center, arc_from_frame. destruct (as_euler_zyx _) as [[? ?] ?]. reflexivity.
  - unfold from_2_point_center, arc_from_frame. destruct (as_euler_zyx _) as [[? ?] ?]. apply NDIV_2.
  - intros (ps & ws & E). change (IZR 0) with 0 in SH. rewrite SH in E. discriminate.
Qed.

Lemma connector_runs ca apex p q : connectable ca apex p q -> runs (connector ca apex p q) p q.
Proof.
  intros [C|[N C]]; unfold connector; destruct (Req_EM_T ca 0) as [Z|Z].
  1,3: destruct (C32_ends p q) as (E0 & E1); split; try assumption;
    [apply new_fresh|reflexivity|apply NDIV_2|intros (ps & ws & E); discriminate].
  - contradiction.
  - apply two_point_runs; assumption.
Qed.

Lemma runs_leaves c p q : runs c p q -> leaves (refresh (Prim c)) = [c].
Proof.
  intros [F A _ _ _ _]. unfold refresh. cbn [n_active]. rewrite A. cbn [n_update leaves]. rewrite F, A. reflexivity.
Qed.

Lemma runs_reverse c p q : runs c p q ->
  leaves (refresh (Prim (c_reverse c))) = [update_lengths (c_reverse c)] /\
  c_eval (update_lengths (c_reverse c)) 0 = q /\ c_eval (update_lengths (c_reverse c)) 1 = p.
Proof.
  intros [F A D N E0 E1]. split.
  - unfold refresh. cbn [n_active]. assert (AR : c_act (c_reverse c) = true) by (unfold c_reverse; destruct (c_shape c); exact A).
    rewrite AR. cbn [n_update leaves]. rewrite update_act, AR. reflexivity.
  - rewrite !C30_reverse_refreshed by (assumption || lra).
    replace (1 - 0) with 1 by ring. replace (1 - 1) with 0 by ring. split; assumption.
Qed.

Lemma new_chain_leaves l : leaves (new_chain true l) = leaves_of (map refresh l).
Proof. reflexivity. Qed.

Lemma arc_runs r a ce y : runs (arc_curve r a ce y 0 0 true)
  (c_eval (arc_curve r a ce y 0 0 true) 0) (c_eval (arc_curve r a ce y 0 0 true) 1).
Proof.
  split; [apply new_fresh|reflexivity|apply NDIV_2| |reflexivity|reflexivity]. intros (ps & ws & E).
  unfold arc_curve in E. rewrite arc_new_shape in E. discriminate.
Qed.

Lemma hd_app (l m : list curve) d : l <> [] -> hd d (l ++ m) = hd d l.
Proof. destruct l; [congruence|reflexivity]. Qed.

Lemma last_app (l m : list curve) d : m <> [] -> last (l ++ m) d = last m d.
Proof.
  intros N. induction l as [|x l IH]; [reflexivity|]. rewrite <- IH. destruct l; [destruct m; [congruence|reflexivity]|reflexivity].
Qed.

Section Closing.
  Variables (t : node) (pitch : R) (p : profile).
  Hypothesis F : flank_ok t.
  Hypothesis FR : Forall fresh (leaves t).
  Hypothesis NO : not_opposite t pitch.
  Hypothesis AS : assembled t pitch p.

  Let P0 := n_point t 0.
  Let P1 := n_point t 1.

  Lemma pieces_fresh : Forall fresh (pieces t p).
  Proof.
    destruct (rd_facts t pitch p NO AS) as (A & _). destruct (ra_facts t pitch p NO AS) as (B & _).
    unfold pieces. repeat (apply Forall_app; split); auto. constructor; [apply (mirror_curve_facts t F)|constructor].
  Qed.

  Lemma chain_refreshed : refresh (pr_chain p) = pr_chain p /\ leaves (pr_chain p) = pieces t p.
  Proof.
    destruct (chain_pieces t pitch p F FR NO AS) as (EC & EL).
    assert (LV : leaves (pr_chain p) = pieces t p) by (rewrite EC; exact EL).
    split; [|exact LV]. apply refresh_id. rewrite LV. apply pieces_fresh.
  Qed.

  Lemma tooth_leaves : leaves (refresh (pr_tooth p)) = leaves t.
  Proof. rewrite (as_tooth _ _ _ AS), refresh_id by exact FR. reflexivity. Qed.
  Lemma rd_leaves : leaves (refresh (Prim (pr_rd p))) = arc_if (pr_rd p).
  Proof. destruct (rd_facts t pitch p NO AS) as (_ & _ & _ & L & R & _). rewrite R, L. reflexivity. Qed.
  Lemma ra_leaves : leaves (refresh (Prim (pr_ra p))) = arc_if (pr_ra p).
  Proof. destruct (ra_facts t pitch p NO AS) as (_ & _ & _ & L & R & _). rewrite R, L. reflexivity. Qed.
  Lemma mirror_leaves : leaves (refresh (Prim (pr_mirror p))) = [mirror_curve t].
  Proof.
    rewrite (as_mirror _ _ _ AS). destruct (mirror_curve_facts t F) as (FM & AM & _).
    unfold refresh. cbn [n_active]. rewrite AM. cbn [n_update leaves]. rewrite FM, AM. reflexivity.
  Qed.

  Lemma pieces_ne : pieces t p <> [].
  Proof. apply (pieces_positive t pitch p F NO AS). Qed.

  (** The start of the profile. *)
  Lemma start_exists : exists a, n_eval (pr_chain p) 0 = Ok a /\ forall d, c_eval (hd d (pieces t p)) 0 = a.
  Proof.
    destruct (chain_pieces t pitch p F FR NO AS) as (EC & EL).
    assert (PP : positive (leaves_of [Prim (pr_rd p); t; Prim (pr_ra p); Prim (mirror_curve t)]))
      by (rewrite EL; apply (pieces_positive t pitch p F NO AS)).
    rewrite EC. destruct (C37_ends true _ (mirror_curve t) PP) as (E0 & _). rewrite E0, EL.
    eexists. split; [reflexivity|]. intros d. pose proof pieces_ne. destruct (pieces t p); [congruence|reflexivity].
  Qed.

  Lemma mirror_end : c_eval (mirror_curve t) 1 = flip P0.
  Proof. apply (mirror_curve_facts t F). Qed.

  Lemma last_pieces d : last (pieces t p) d = mirror_curve t.
  Proof. unfold pieces. rewrite !app_assoc. apply last_last. Qed.

  (** The profile with three further pieces back to its start is a loop. *)
  Lemma loop_within eps a x y z m r : gaps_le t pitch eps ->
    (forall d, c_eval (hd d (pieces t p)) 0 = a) ->
    c_eval x 0 = flip P0 -> c_eval x 1 = m -> c_eval y 0 = m -> c_eval y 1 = r -> c_eval z 0 = r -> c_eval z 1 = a ->
    closed_within eps (pieces t p ++ [x; y; z]).
  Proof.
    intros GL HA X0 X1 Y0 Y1 Z0 Z1. assert (EP : 0 <= eps) by apply GL.
    assert (ZZ : forall v, norm (vsub v v) <= eps) by (intros v; rewrite vsub_diag, norm_ORIGIN; exact EP).
    split; [intros E; apply app_eq_nil in E; destruct E as [_ E]; discriminate|]. split.
    - apply joined_within_app; [exact pieces_ne|discriminate|apply (pieces_within t pitch); assumption| |].
      + cbn [joined_within]. rewrite X1, Y0, Y1, Z0. auto.
      + intros d. rewrite last_pieces, mirror_end. cbn [hd]. rewrite X0. apply ZZ.
    - intros d. rewrite last_app by discriminate. rewrite hd_app by exact pieces_ne. cbn [last]. rewrite HA, Z1. apply ZZ.
  Qed.

  Lemma profile_closed_within eps ca apex mid : gaps_le t pitch eps ->
    exists e a, generate_profile_extensions p ca apex mid = Ok e /\ n_eval (pr_chain p) 0 = Ok a /\
      (connectable ca apex (c_eval (pr_ro p) 0) a -> connectable ca apex (c_eval (pr_ro p) 1) (flip P0) ->
       closed_within eps (leaves (profile_closed e))).
  Proof.
    intros GL. destruct start_exists as (a & EA & HA). unfold generate_profile_extensions.
    rewrite EA, (as_tooth _ _ _ AS), (leaves_wf t (fo_act t F) (fo_pos t F)). cbn [bind].
    eexists. exists a. split; [reflexivity|]. split; [reflexivity|]. intros C0 C2.
    assert (M1 : c_eval (pr_mirror p) 1 = flip P0) by (rewrite (as_mirror _ _ _ AS); apply mirror_end).
    rewrite M1.
    unfold profile_closed. cbn [ex_base ex_ro0 ex_ro1 ex_ro2]. rewrite new_chain_leaves. cbn [map leaves_of flat_map].
    unfold leaves_of. cbn [flat_map]. rewrite rd_leaves, tooth_leaves, ra_leaves, mirror_leaves.
    pose proof (connector_runs _ _ _ _ C0) as R0. pose proof (connector_runs _ _ _ _ C2) as R2.
    destruct (as_ro _ _ _ AS) as (r & an & ce & y & ER). pose proof (arc_runs r an ce y) as RR. rewrite <- ER in RR.
    destruct (runs_reverse _ _ _ R2) as (L2 & E20 & E21). destruct (runs_reverse _ _ _ RR) as (LR & ER0 & ER1).
    rewrite L2, LR, (runs_leaves _ _ _ R0).
    match goal with |- closed_within _ ?l => replace l with (pieces t p ++
      [update_lengths (c_reverse (connector ca apex (c_eval (pr_ro p) 1) (flip P0)));
       update_lengths (c_reverse (pr_ro p)); connector ca apex (c_eval (pr_ro p) 0) a]) end.
    - eapply loop_within; [exact GL|exact HA|exact E20|exact E21|exact ER0|exact ER1|apply R0|apply R0].
    - unfold pieces. rewrite <- !app_assoc. reflexivity.
  Qed.

  Lemma generated_closed_within eps ca apex : gaps_le t pitch eps ->
    exists c a, generate_profile_closed p ca apex = Ok c /\ n_eval (pr_chain p) 0 = Ok a /\
      (connectable ca apex (c_eval (pr_ro p) 0) a -> connectable ca apex (flip P0) (c_eval (pr_ro p) 1) ->
       closed_within eps (leaves c)).
  Proof.
    intros GL. destruct start_exists as (a & EA & HA). unfold generate_profile_closed.
    destruct (profile_ends t pitch p F FR NO AS) as (E1 & _). rewrite EA, E1. cbn [bind].
    eexists. exists a. split; [reflexivity|]. split; [reflexivity|]. intros C0 C2.
    rewrite new_chain_leaves. unfold leaves_of. cbn [map flat_map].
    destruct chain_refreshed as (-> & LV). rewrite LV. fold P0.
    pose proof (connector_runs _ _ _ _ C0) as R0. pose proof (connector_runs _ _ _ _ C2) as R2.
    destruct (as_ro _ _ _ AS) as (r & an & ce & y & ER). pose proof (arc_runs r an ce y) as RR. rewrite <- ER in RR.
    destruct (runs_reverse _ _ _ RR) as (LR & ER0 & ER1).
    rewrite LR, (runs_leaves _ _ _ R0), (runs_leaves _ _ _ R2). cbn [app].
    eapply loop_within; [exact GL|exact HA|apply R2|apply R2|exact ER0|exact ER1|apply R0|apply R0].
  Qed.

  (** Centres of the closing arcs. *)
  Lemma closing_center a b r y : (0 < norm (vsub a b) -> vx a * vy b - vy a * vx b <> 0) -> vz a = vz b ->
    arc_center (closing_arc a b (axis_center a b) r y) = V 0 0 (vz a).
  Proof.
    intros C Z. assert (CE : axis_center a b = V 0 0 (vz a)) by (unfold axis_center; apply vec_eq; cbn; lra).
    unfold closing_arc. destruct (Rlt_dec _ _) as [H|H].
    - assert (P : 0 < / 10000000000) by (apply Rinv_0_lt_compat; lra).
      destruct (C33_two_point_center_shape a b (axis_center a b) 0 true) as (th & m & SH & _).
      + intros E. apply (C ltac:(lra)). apply (f_equal vz) in E. revert E. rewrite CE. destruct a, b. vec_simpl. intros. lra.
      + unfold arc_center. change (IZR 0) with 0 in SH. rewrite SH. exact CE.
    - unfold arc_center, arc_curve. rewrite arc_new_shape. exact CE.
  Qed.

  Lemma rd_center : arc_center (pr_rd p) = V 0 0 (vz P0).
  Proof.
    destruct (as_rd _ _ _ AS) as (r & y & ->). rewrite closing_center; [reflexivity| |reflexivity].
    intros N. apply root_cross; [exact N|apply NO].
  Qed.
  Lemma ra_center : arc_center (pr_ra p) = V 0 0 (vz P1).
  Proof.
    destruct (as_ra _ _ _ AS) as (r & y & ->). rewrite closing_center; [reflexivity| |reflexivity].
    intros N. apply tip_cross; [exact N|apply NO].
  Qed.

  Lemma tooth_closed_within eps ca apex mid : gaps_le t pitch eps -> vx P0 <> 0 -> vy P0 <> 0 ->
    exists e, generate_profile_extensions p ca apex mid = Ok e /\
      closed_within eps (leaves (tooth_profile_closed e)).
  Proof.
    intros GL X Y. destruct start_exists as (a & EA & HA). unfold generate_profile_extensions.
    rewrite EA, (as_tooth _ _ _ AS), (leaves_wf t (fo_act t F) (fo_pos t F)). cbn [bind].
    eexists. split; [reflexivity|].
    assert (M1 : c_eval (pr_mirror p) 1 = flip P0) by (rewrite (as_mirror _ _ _ AS); apply mirror_end).
    rewrite M1, rd_center. unfold tooth_profile_closed. cbn [ex_base ex_rd]. rewrite new_chain_leaves. unfold leaves_of.
    cbn [map flat_map]. rewrite tooth_leaves, ra_leaves, mirror_leaves.
    assert (R : runs (from_2_point_center P0 (flip P0) (V 0 0 (vz P0)) 0 true) P0 (flip P0)).
    { apply two_point_runs.
      - unfold norm. f_equal. clearbody P0. destruct P0. unfold flip. vec_simpl. ring.
      - intros E. apply (f_equal vz) in E. revert E. clearbody P0. destruct P0 as [x y z]. unfold flip. cbn in X, Y. vec_simpl.
        intros E. assert (K : x * y = 0) by lra. destruct (Rmult_integral _ _ K); contradiction. }
    destruct (runs_reverse _ _ _ R) as (L & E0 & E1). fold P0. rewrite L. rewrite app_nil_r.
    assert (EP : 0 <= eps) by apply GL.
    assert (ZZ : forall v, norm (vsub v v) <= eps) by (intros v; rewrite vsub_diag, norm_ORIGIN; exact EP).
    set (z := update_lengths (c_reverse _)) in *.
    replace (leaves t ++ arc_if (pr_ra p) ++ [mirror_curve t] ++ [z]) with
      ((leaves t ++ arc_if (pr_ra p) ++ [mirror_curve t]) ++ [z]) by (rewrite <- !app_assoc; reflexivity).
    assert (NE : leaves t ++ arc_if (pr_ra p) ++ [mirror_curve t] <> []).
    { intros E. apply app_eq_nil in E. destruct E as [E _]. exact (flank_nonempty t F E). }
    split; [intros E; apply app_eq_nil in E; destruct E as [_ E]; discriminate|]. split.
    - apply joined_within_app; [exact NE|discriminate|apply (tooth_within t pitch); assumption|exact I|].
      intros d. replace (last _ d) with (mirror_curve t) by (rewrite !app_assoc, last_last; reflexivity).
      cbn [hd]. rewrite mirror_end, E0. apply ZZ.
    - intros d. rewrite last_app by discriminate. rewrite hd_app by exact NE. rewrite hd_app by exact (flank_nonempty t F).
      cbn [last]. destruct (flank_ends t F d) as (<- & _). rewrite E1. apply ZZ.
  Qed.
End Closing.

Lemma joined_within_mid eps a x r d : a <> [] -> joined_within eps (a ++ x :: r) ->
  norm (vsub (c_eval (last a d) 1) (c_eval x 0)) <= eps.
Proof.
  induction a as [|y a IH]; [congruence|]. intros _ J. destruct a as [|z a].
  - apply J.
  - apply IH; [discriminate|]. apply J.
Qed.

(** The loops built by [profile_closed], [tooth_profile_closed] and generate_profile_closed close, up to 1e-10, exactly
    if both closing arcs are needed. *)
Theorem C54_closed sv tooth rc tipf rootf pitch t p ca apex mid :
  Forall fresh (leaves tooth) -> trim_flank sv tooth rc tipf rootf pitch = Ok t ->
  flank_ok t -> not_opposite t pitch -> trim_reference_profile sv tooth rc tipf rootf pitch = Ok p ->
  exists e c a, generate_profile_extensions p ca apex mid = Ok e /\ generate_profile_closed p ca apex = Ok c /\
    n_eval (pr_chain p) 0 = Ok a /\
    forall eps, eps = / 10000000000 \/ (eps = 0 /\ / 10000000000 < root_gap t pitch /\ / 10000000000 < tip_gap t) ->
      (connectable ca apex (c_eval (pr_ro p) 0) a -> connectable ca apex (c_eval (pr_ro p) 1) (flip (n_point t 0)) ->
       closed_within eps (leaves (profile_closed e))) /\
      (connectable ca apex (c_eval (pr_ro p) 0) a -> connectable ca apex (flip (n_point t 0)) (c_eval (pr_ro p) 1) ->
       closed_within eps (leaves c)) /\
      (vx (n_point t 0) <> 0 -> vy (n_point t 0) <> 0 -> closed_within eps (leaves (tooth_profile_closed e))).
Proof.
  intros FT TR F NO EP. pose proof (trim_leaves_fresh _ _ _ _ _ _ _ FT TR) as FR.
  destruct (assemble_ok t rc pitch F FR NO) as (p' & EP' & AS).
  unfold trim_reference_profile in EP. rewrite TR in EP. cbn [bind] in EP. rewrite EP in EP'. injection EP' as <-.
  assert (E10 : 0 < / 10000000000) by (apply Rinv_0_lt_compat; lra).
  assert (GT : gaps_le t pitch (/ 10000000000)) by (repeat split; lra).
  destruct (profile_closed_within t pitch p F FR NO AS _ ca apex mid GT) as (e & a & EE & EA & _).
  destruct (generated_closed_within t pitch p F FR NO AS _ ca apex GT) as (c & a' & EC & EA' & _).
  exists e, c, a. split; [exact EE|]. split; [exact EC|]. split; [exact EA|]. intros eps HE.
  assert (G : gaps_le t pitch eps) by (destruct HE as [->|(-> & ? & ?)]; repeat split; lra).
  destruct (profile_closed_within t pitch p F FR NO AS _ ca apex mid G) as (e1 & a1 & EE1 & EA1 & H1).
  destruct (generated_closed_within t pitch p F FR NO AS _ ca apex G) as (c2 & a2 & EC2 & EA2 & H2).
  assert (e1 = e) by congruence. assert (a1 = a) by congruence. assert (c2 = c) by congruence. assert (a2 = a) by congruence.
  subst. split; [exact H1|]. split; [exact H2|]. intros X Y.
  destruct (tooth_closed_within t pitch p F FR NO AS _ ca apex mid G X Y) as (e2 & EE2 & H).
  assert (e2 = e) by congruence. subst. exact H.
Qed.

(** The tips across a tooth gap: the end of the flank, and its mirror image one pitch back. *)
Definition tip_span (t : node) (pitch : R) : R :=
  norm (vsub (n_point t 1) (turn (- pitch) (flip (n_point t 1)))).

(** [tooth_profile_closed_outer] and [tooth_profile_closed_ring] are documented as closed chains, but the flank is
    followed by the arc from the other tip to this one: the chain jumps across the whole tooth gap. *)
Theorem C54_outer_ring_broken sv tooth rc tipf rootf pitch t p ca apex mid e :
  Forall fresh (leaves tooth) -> trim_flank sv tooth rc tipf rootf pitch = Ok t ->
  flank_ok t -> not_opposite t pitch -> trim_reference_profile sv tooth rc tipf rootf pitch = Ok p ->
  / 10000000000 < tip_gap t -> 0 < tip_span t pitch ->
  vx (n_point t 1) * cos (pitch / 2) - vy (n_point t 1) * sin (pitch / 2) <> 0 ->
  generate_profile_extensions p ca apex mid = Ok e ->
  forall eps, eps < tip_span t pitch ->
    ~ joined_within eps (leaves (tooth_profile_closed_outer e)) /\
    ~ joined_within eps (leaves (tooth_profile_closed_ring e)).
Proof.
  intros FT TR F NO EP TG TS NC EE eps HE. pose proof (trim_leaves_fresh _ _ _ _ _ _ _ FT TR) as FR.
  destruct (assemble_ok t rc pitch F FR NO) as (p' & EP' & AS).
  unfold trim_reference_profile in EP. rewrite TR in EP. cbn [bind] in EP. rewrite EP in EP'. injection EP' as <-.
  destruct (start_exists t pitch p F FR NO AS) as (a & EA & _).
  unfold generate_profile_extensions in EE.
  rewrite EA, (as_tooth _ _ _ AS), (leaves_wf t (fo_act t F) (fo_pos t F)) in EE. cbn [bind] in EE.
  injection EE as <-. destruct (ra_facts t pitch p NO AS) as (_ & _ & _ & _ & _ & _ & G). destruct (G TG) as (_ & A0 & A1).
  assert (R : runs (from_2_point_center (rotate_vector (c_eval (pr_ra p) 1) (- pr_pitch p)) (c_eval (pr_ra p) 0)
       (arc_center (pr_ra p)) 0 true) (turn (- pitch) (flip (n_point t 1))) (n_point t 1)).
  { rewrite A0, A1, (ra_center t pitch p NO AS), (as_pitch _ _ _ AS). unfold rotate_vector. rewrite <- turn_rotz.
    apply two_point_runs.
    - unfold norm. f_equal. generalize (n_point t 1). intros q. unfold turn, flip. pose proof (sc1 (- pitch)) as S. vec_simpl.
      clear - S. nsatz.
    - intros E. apply (f_equal vz) in E.
      apply (root_cross (n_point t 1) pitch).
      + rewrite norm_swap. exact TS.
      + exact NC.
      + cbn [vz ORIGIN] in E. rewrite <- E. clear. generalize (n_point t 1). intros q. unfold turn, flip. vec_simpl. ring. }
  pose proof (ru_0 _ _ _ R) as E0.
  assert (BR : forall r r', ~ joined_within eps (r ++ leaves t ++ from_2_point_center (rotate_vector (c_eval (pr_ra p) 1) (- pr_pitch p))
     (c_eval (pr_ra p) 0) (arc_center (pr_ra p)) 0 true :: r')).
  { intros r r' J. rewrite app_assoc in J. pose proof (flank_nonempty t F) as NE.
    apply (joined_within_mid _ _ _ _ (pr_ra p)) in J.
    - rewrite E0, last_app in J by exact NE. destruct (flank_ends t F (pr_ra p)) as (_ & EF). rewrite <- EF in J.
      unfold tip_span in HE. lra.
    - intros E. apply app_eq_nil in E. tauto. }
  split; intros J.
  - unfold tooth_profile_closed_outer in J. cbn [ex_base ex_ra] in J. rewrite new_chain_leaves in J.
    unfold leaves_of in J. cbn [map flat_map] in J.
    rewrite (tooth_leaves t pitch p FR AS), (runs_leaves _ _ _ R) in J. rewrite !app_assoc, <- (app_assoc _ (leaves t)) in J.
    rewrite <- !app_assoc in J. rewrite app_assoc in J. exact (BR _ _ J).
  - unfold tooth_profile_closed_ring in J. cbn [ex_base ex_ra ex_ro2] in J. rewrite new_chain_leaves in J.
    unfold leaves_of in J. cbn [map flat_map] in J.
    rewrite (tooth_leaves t pitch p FR AS), (runs_leaves _ _ _ R) in J. exact (BR [] _ J).
Qed.

Example C54_example : exists p e c,
  trim_reference_profile ex_solver ex_flank ex_circles 0 0 (PI / 2) = Ok p /\
  generate_profile_extensions p 0 ORIGIN (1 / 2) = Ok e /\ generate_profile_closed p 0 ORIGIN = Ok c /\
  closed_within 0 (leaves (profile_closed e)) /\ closed_within 0 (leaves (tooth_profile_closed e)) /\
  closed_within 0 (leaves c) /\
  ~ joined_within 1 (leaves (tooth_profile_closed_outer e)) /\ ~ joined_within 1 (leaves (tooth_profile_closed_ring e)).
Proof.
  assert (FR : Forall fresh (leaves ex_flank)) by (constructor; [apply new_fresh|constructor]).
  destruct (C53_profile ex_solver ex_flank ex_circles 0 0 (PI / 2) ex_flank FR (ex_trim _) ex_flank_ok ex_not_opposite)
    as (p & a & b & EP & _).
  destruct (C54_closed ex_solver ex_flank ex_circles 0 0 (PI / 2) ex_flank p 0 ORIGIN (1 / 2) FR (ex_trim _) ex_flank_ok ex_not_opposite EP)
    as (e & c & q & EE & EC & EQ & H).
  destruct (H 0) as (H1 & H2 & H3); [right; split; [reflexivity|split; [apply ex_root_gap|apply ex_tip_gap]]|].
  exists p, e, c. split; [exact EP|]. split; [exact EE|]. split; [exact EC|].
  split; [apply H1; left; reflexivity|]. split; [apply H3; rewrite ex_flank_point; cbn [vx vy]; lra|].
  split; [apply H2; left; reflexivity|].
  assert (S : 12 <= tip_span ex_flank (PI / 2)).
  { unfold tip_span. rewrite ex_flank_point. unfold turn, flip. cbn [vx vy vz]. rewrite cos_neg, sin_neg, cos_PI2, sin_PI2.
    apply Rle_trans with (sqrt (12 * 12)); [rewrite sqrt_square; lra|]. unfold norm. apply sqrt_le_1_alt. vec_simpl. lra. }
  apply (C54_outer_ring_broken ex_solver ex_flank ex_circles 0 0 (PI / 2) ex_flank p 0 ORIGIN (1 / 2) e);
    auto using ex_trim, ex_flank_ok, ex_not_opposite, ex_tip_gap; try lra.
  rewrite ex_flank_point. cbn [vx vy]. replace (PI / 2 / 2) with (PI / 4) by field. rewrite cos_PI4, sin_PI4.
  assert (0 < 1 / sqrt 2) by (apply Rdiv_lt_0_compat; [lra|apply sqrt_lt_R0; lra]). lra.
Qed.

(** ** C55 *)
(** The curves of the chain form are turned, then placed. *)
Lemma transformed_new f n : n_active n = true ->
  n_transformed f n = new_curve (SGen (fun t => f (n_point n t))) true 0 1 NDIV /\
  (forall u, c_fun (n_transformed f n) u = f (n_point n u)) /\ fresh (n_transformed f n) /\
  c_act (n_transformed f n) = true /\ c_ndiv (n_transformed f n) = NDIV /\
  c_t0 (n_transformed f n) = 0 /\ c_t1 (n_transformed f n) = 1.
Proof. intros A. unfold n_transformed. rewrite A. repeat split; try reflexivity; apply new_fresh. Qed.

Lemma member_eval p pitch i s : n_active (pr_chain p) = true ->
  c_eval (boundary_member p pitch i) s =
  apply_gear_transform (turn (INR i * pitch) (n_point (pr_chain p)
    (s2t (n_rotated (pr_chain p) (INR i * pitch) OUT ORIGIN) (s2t (boundary_member p pitch i) s)))) (pr_trf p).
Proof.
  intros A. unfold c_eval at 1. set (u := s2t (boundary_member p pitch i) s).
  destruct (transformed_new (rotate_func (normalize OUT) (INR i * pitch) ORIGIN) _ A) as (_ & EF & _ & AC & _).
  fold (n_rotated (pr_chain p) (INR i * pitch) OUT ORIGIN) in EF, AC.
  unfold boundary_member. rewrite (proj1 (proj2 (transformed_new _ (Prim (n_rotated (pr_chain p) (INR i * pitch) OUT ORIGIN)) AC))).
  f_equal. unfold n_point at 1. cbn [n_eval]. unfold c_eval. rewrite EF. apply turn_rotate.
Qed.

Lemma s2t_onto c : fresh c -> (2 <= c_ndiv c)%nat -> incr (c_ss c) -> c_t0 c = 0 -> c_t1 c = 1 ->
  s2t c 0 = 0 /\ s2t c 1 = 1 /\ (forall s, 0 <= s <= 1 -> 0 <= s2t c s <= 1) /\
  (forall u, 0 <= u <= 1 -> exists s, 0 <= s <= 1 /\ s2t c s = u).
Proof.
  intros F N I T0 T1. destruct (C28_ends c F N I) as (E0 & E1). rewrite T0 in E0. rewrite T1 in E1.
  assert (M := C28_strictly_monotone c F N I ltac:(lra)).
  split; [exact E0|]. split; [exact E1|]. split.
  - intros s Hs. split.
    + destruct (proj1 Hs) as [H|<-]; [|lra]. rewrite <- E0. left. apply M; lra.
    + destruct (proj2 Hs) as [H| ->]; [|lra]. rewrite <- E1. left. apply M; lra.
  - intros u Hu. exists (t2s c u). split; [|apply C28_s2t_inverts_t2s; auto; lra].
    pose proof (fresh_tab c F N) as Tc. pose proof (fresh_ts_incr c F N ltac:(lra)) as IT.
    unfold t2s. destruct (Rlt_dec u (c_t0 c)); [lra|]. destruct (Rlt_dec (c_t1 c) u); [lra|].
    assert (BB : hd 0 (c_ts c) <= u <= last (c_ts c) 0)
      by (rewrite (tab_t0 _ _ _ _ _ Tc), (tab_t1 _ _ _ _ _ Tc); lra).
    rewrite np_interp_in by exact BB.
    destruct (scan_inverse (c_ts c) (c_ss c) u) as [R' _]; auto.
    + symmetry. apply Tc.
    + rewrite <- (tab_len _ _ _ _ _ Tc). apply Tc.
    + rewrite (tab_s0 _ _ _ _ _ Tc), (tab_s1 _ _ _ _ _ Tc) in R'. exact R'.
Qed.

(** No two consecutive sample points of the tooth curves of the chain form coincide. *)
Definition sampled (p : profile) (pitch : R) (i : nat) : Prop :=
  incr (c_ss (n_rotated (pr_chain p) (INR i * pitch) OUT ORIGIN)) /\ incr (c_ss (boundary_member p pitch i)).

(** Each curve of the chain form runs through the turned and placed profile, and nothing else, from end to end. *)
Theorem C55_member p pitch i : n_active (pr_chain p) = true -> sampled p pitch i ->
  let point u := apply_gear_transform (turn (INR i * pitch) (n_point (pr_chain p) u)) (pr_trf p) in
  c_eval (boundary_member p pitch i) 0 = point 0 /\ c_eval (boundary_member p pitch i) 1 = point 1 /\
  forall q, (exists s, 0 <= s <= 1 /\ c_eval (boundary_member p pitch i) s = q) <-> (exists u, 0 <= u <= 1 /\ point u = q).
Proof.
  intros A (I1 & I2) point.
  destruct (transformed_new (rotate_func (normalize OUT) (INR i * pitch) ORIGIN) _ A) as (_ & _ & F1 & AC & N1 & T1 & T1').
  fold (n_rotated (pr_chain p) (INR i * pitch) OUT ORIGIN) in F1, AC, N1, T1, T1'.
  destruct (transformed_new (fun q => apply_gear_transform q (pr_trf p)) (Prim (n_rotated (pr_chain p) (INR i * pitch) OUT ORIGIN)) AC)
    as (_ & _ & F2 & _ & N2 & T2 & T2').
  fold (boundary_member p pitch i) in F2, N2, T2, T2'.
  pose proof NDIV_2 as N0.
  destruct (s2t_onto _ F1 ltac:(lia) I1 T1 T1') as (A0 & A1 & AR & AS).
  destruct (s2t_onto _ F2 ltac:(lia) I2 T2 T2') as (B0 & B1 & BR & BS).
  split; [rewrite member_eval, B0, A0 by exact A; reflexivity|].
  split; [rewrite member_eval, B1, A1 by exact A; reflexivity|].
  intros q. split.
  - intros (s & Hs & <-). rewrite member_eval by exact A. eexists. split; [apply AR, BR, Hs|reflexivity].
  - intros (u & Hu & <-). destruct (AS u Hu) as (v & Hv & EV). destruct (BS v Hv) as (s & Hs & ES).
    exists s. split; [exact Hs|]. rewrite member_eval, ES, EV by exact A. reflexivity.
Qed.

(** The chain form covers the image, under the transform of the profile, of the points of the function form. *)
Theorem C55_forms p pitch n : n_active (pr_chain p) = true -> (1 <= n)%nat -> (forall i, (i < n)%nat -> sampled p pitch i) ->
  n_point (pr_chain p) 1 = turn pitch (n_point (pr_chain p) 0) ->
  forall q, (exists i s, (i < n)%nat /\ 0 <= s <= 1 /\ c_eval (boundary_member p pitch i) s = q) <->
            (exists t, 0 <= t <= 1 /\ apply_gear_transform (boundary_fun p pitch (INR n) t) (pr_trf p) = q).
Proof.
  intros A N S P q. assert (N0 : 1 <= INR n) by (apply (le_INR 1) in N; exact N).
  assert (TE : forall i u, 0 <= u <= 1 -> boundary_fun p pitch (INR n) ((INR i + u) / INR n) = turn (INR i * pitch) (n_point (pr_chain p) u)).
  { intros i u Hu. destruct (Req_dec u 1) as [->|NE].
    - rewrite P, turn_turn. replace (INR i + 1) with (INR (Datatypes.S i) + 0) by (rewrite S_INR; ring).
      rewrite C53_teeth by lra. rewrite S_INR. f_equal. ring.
    - apply C53_teeth; lra. }
  split.
  - intros (i & s & Hi & Hs & E). destruct (C55_member p pitch i A (S i Hi)) as (_ & _ & M).
    destruct (proj1 (M q)) as (u & Hu & EU); [exists s; split; assumption|].
    exists ((INR i + u) / INR n). split.
    + apply lt_INR in Hi as Hi'. assert (INR i + 1 <= INR n) by (rewrite <- S_INR; apply le_INR; lia). pose proof (pos_INR i).
      split; [apply Rmult_le_reg_r with (INR n)|apply Rmult_le_reg_r with (INR n)]; try lra;
        unfold Rdiv; rewrite Rmult_assoc, Rinv_l by lra; lra.
    + rewrite TE by exact Hu. exact EU.
  - intros (t & Ht & E).
    assert (K : exists i u, (i < n)%nat /\ 0 <= u <= 1 /\ t = (INR i + u) / INR n).
    { destruct (Req_dec t 1) as [->|NE].
      - exists (n - 1)%nat, 1. split; [lia|]. split; [lra|]. rewrite minus_INR by lia. cbn. field. lra.
      - pose proof (floorZ_bound (t * INR n)) as B.
        assert (F0 : (0 <= floorZ (t * INR n))%Z).
        { rewrite <- (floorZ_IZR 0). apply floorZ_mono. nra. }
        exists (Z.to_nat (floorZ (t * INR n))), (t * INR n - IZR (floorZ (t * INR n))).
        assert (EI : INR (Z.to_nat (floorZ (t * INR n))) = IZR (floorZ (t * INR n))) by (rewrite INR_IZR_INZ, Z2Nat.id by lia; reflexivity).
        split; [|split; [lra|rewrite EI; field; lra]].
        apply INR_lt. rewrite EI. nra. }
    destruct K as (i & u & Hi & Hu & ->). rewrite TE in E by exact Hu.
    destruct (C55_member p pitch i A (S i Hi)) as (_ & _ & M).
    destruct (proj2 (M q)) as (s & Hs & ES); [exists u; split; assumption|].
    exists i, s. auto.
Qed.

(** So the two forms have the same points when the transform is trivial ... *)
Theorem C55_trivial_transform p pitch n : n_active (pr_chain p) = true -> (1 <= n)%nat ->
  (forall i, (i < n)%nat -> sampled p pitch i) -> n_point (pr_chain p) 1 = turn pitch (n_point (pr_chain p) 0) ->
  pr_trf p = g_default ->
  forall q, (exists i s, (i < n)%nat /\ 0 <= s <= 1 /\ c_eval (boundary_member p pitch i) s = q) <->
            (exists t, 0 <= t <= 1 /\ boundary_fun p pitch (INR n) t = q).
Proof.
  intros A N S P T q. rewrite (C55_forms p pitch n A N S P q), T.
  assert (G : forall v, apply_gear_transform v g_default = v).
  { intros v. rewrite apply_gear_transform_eq. cbn [g_default g_scale g_orient g_angle g_center]. rewrite <- turn_rotz, turn_0.
    destruct v. apply vec_eq; vec_simpl; ring. }
  split; intros (t & Ht & E); exists t; (split; [exact Ht|]); [rewrite G in E|rewrite G]; exact E.
Qed.

(** ... but the start of a tooth is at the same place only if the transform leaves it there. *)
Theorem C55_start_differs p pitch n i : n_active (pr_chain p) = true -> 0 < n -> sampled p pitch i ->
  (c_eval (boundary_member p pitch i) 0 = boundary_fun p pitch n (INR i / n) <->
   apply_gear_transform (boundary_fun p pitch n (INR i / n)) (pr_trf p) = boundary_fun p pitch n (INR i / n)).
Proof.
  intros A N S. destruct (C55_member p pitch i A S) as (-> & _).
  replace (INR i / n) with ((INR i + 0) / n) by (field; lra). rewrite C53_teeth by lra. reflexivity.
Qed.

(** The function form raises TypeError for a tooth number that is a float. *)
Theorem C55_float_teeth p x pitch n : generate_boundary p (PyFloat x) pitch n = Err TypeError.
Proof. reflexivity. Qed.
Theorem C55_int_teeth p z pitch n : (1 <= z)%Z -> exists c, generate_boundary p (PyInt z) pitch n = Ok c /\
  c_eval c 0 = boundary_fun p pitch n 0 /\ c_eval c 1 = boundary_fun p pitch n 1 /\
  forall s, exists t, c_eval c s = boundary_fun p pitch n t.
Proof.
  intros Z. eexists. split; [reflexivity|]. set (c := new_curve _ _ _ _ _).
  assert (D : (2 <= c_ndiv c)%nat) by (change (2 <= Z.to_nat (z * 20))%nat; lia).
  assert (F : fresh c) by apply new_fresh.
  split; [rewrite fresh_start by assumption; reflexivity|]. split; [rewrite fresh_end by assumption; reflexivity|].
  intros s. exists (s2t c s). reflexivity.
Qed.

(** A profile curve without double points has such samples. *)
Lemma sampled_injective p pitch i : n_active (pr_chain p) = true ->
  (forall u v, 0 <= u <= 1 -> 0 <= v <= 1 -> n_point (pr_chain p) u = n_point (pr_chain p) v -> u = v) ->
  g_scale (pr_trf p) <> 0 -> orthogonal (g_orient (pr_trf p)) -> sampled p pitch i.
Proof.
  intros A INJ SC OR.
  assert (TI : forall a q r, turn a q = turn a r -> q = r).
  { intros a q r E. apply vsub_eq0, norm_zero. rewrite <- (turn_dist a), E, vsub_diag. apply norm_ORIGIN. }
  assert (RI : forall q r, rotate_func (normalize OUT) (INR i * pitch) ORIGIN q = rotate_func (normalize OUT) (INR i * pitch) ORIGIN r -> q = r).
  { intros q r. rewrite !turn_rotate. apply TI. }
  destruct (transformed_new (rotate_func (normalize OUT) (INR i * pitch) ORIGIN) _ A) as (E1 & EF & F1 & AC & N1 & T1 & T1').
  fold (n_rotated (pr_chain p) (INR i * pitch) OUT ORIGIN) in E1, EF, F1, AC, N1, T1, T1'.
  assert (DI : forall j, (S j < NDIV)%nat -> 0 <= 0 + (1 - 0) * INR j / INR (NDIV - 1) /\
     0 + (1 - 0) * INR j / INR (NDIV - 1) < 0 + (1 - 0) * INR (S j) / INR (NDIV - 1) /\
     0 + (1 - 0) * INR (S j) / INR (NDIV - 1) <= 1).
  { intros j Hj. assert (N0 : INR (NDIV - 1) = 20) by (unfold NDIV; cbn; lra). rewrite N0. pose proof (pos_INR j).
    assert (INR (S j) <= 20) by (rewrite <- N0; apply le_INR; lia). rewrite S_INR in *. lra. }
  assert (I1 : incr (c_ss (n_rotated (pr_chain p) (INR i * pitch) OUT ORIGIN))).
  { rewrite E1. apply C28_distinct_samples_strict; [apply NDIV_2|]. intros j Hj E. destruct (DI j Hj) as (D1 & D2 & D3).
    apply RI, INJ in E; lra. }
  split; [exact I1|]. unfold boundary_member.
  destruct (transformed_new (fun q => apply_gear_transform q (pr_trf p)) (Prim (n_rotated (pr_chain p) (INR i * pitch) OUT ORIGIN)) AC)
    as (E2 & _). rewrite E2. apply C28_distinct_samples_strict; [apply NDIV_2|]. intros j Hj E. destruct (DI j Hj) as (D1 & D2 & D3).
  pose proof NDIV_2 as N0.
  destruct (s2t_onto _ F1 ltac:(lia) I1 T1 T1') as (_ & _ & AR & _).
  assert (M := C28_strictly_monotone _ F1 ltac:(lia) I1 ltac:(lra)).
  assert (GI : forall q r, apply_gear_transform q (pr_trf p) = apply_gear_transform r (pr_trf p) -> q = r).
  { intros q r. rewrite !apply_gear_transform_eq. intros H.
    set (O := g_orient (pr_trf p)) in *. set (k := g_scale (pr_trf p)) in *.
    assert (H2 : smul k (mapp O (mapp (rotz (g_angle (pr_trf p))) (vsub q r))) = ORIGIN).
    { apply (f_equal (fun v => vsub v (vadd (smul k (mapp O (mapp (rotz (g_angle (pr_trf p))) r))) (g_center (pr_trf p))))) in H.
      rewrite vsub_diag in H. rewrite <- H. generalize (rotz (g_angle (pr_trf p))) (g_center (pr_trf p)). intros m c.
      clearbody O k. clear. destruct O, m, c, q, r. apply vec_eq; vec_simpl; ring. }
    apply vsub_eq0, norm_zero.
    apply (f_equal norm) in H2. rewrite norm_smul, norm_ORIGIN, orthogonal_norm in H2 by exact OR.
    rewrite orthogonal_norm in H2 by apply rotation_rotz.
    destruct (Rmult_integral _ _ H2) as [K|K]; [|exact K]. exfalso. apply SC. destruct (Req_dec k 0); [assumption|].
    apply Rabs_pos_lt in H0. lra. }
  apply GI in E. unfold n_point in E. cbn [n_eval] in E. unfold c_eval in E. rewrite !EF in E. apply RI, INJ in E.
  - specialize (M _ _ D1 D2 D3). lra.
  - apply AR; lra.
  - apply AR; lra.
Qed.

(** *** A square as a gear of four "teeth" *)
Definition sq_line : curve := line_curve RIGHT UP true.
Definition sq_off : curve := line_curve RIGHT UP false.
Definition sq_profile (T : gtransform) : profile := mkPr sq_off sq_off sq_line (Prim sq_line) sq_off (PI / 2) T.

Lemma sq_point T u : n_point (pr_chain (sq_profile T)) u = V (1 - u) u 0.
Proof.
  assert (L : 0 < c_length sq_line).
  { destruct (fresh_line sq_line RIGHT UP ltac:(apply new_fresh) eq_refl) as (_ & _ & ->).
    change (c_t1 sq_line) with 1. change (c_t0 sq_line) with 0. rewrite Rminus_0_r, Rabs_R1, Rmult_1_r.
    unfold norm. apply sqrt_lt_R0. vec_simpl. lra. }
  unfold n_point, pr_chain.
  change (new_chain true _) with (Chain true [Prim sq_off; Prim sq_line; Prim sq_off; Prim sq_off]).
  assert (P : positive (leaves_of [Prim sq_off; Prim sq_line; Prim sq_off; Prim sq_off])).
  { split; [discriminate|]. constructor; [exact L|constructor]. }
  rewrite C37_travel by (apply positive_wf_chain, P).
  change (leaves_of [Prim sq_off; Prim sq_line; Prim sq_off; Prim sq_off]) with [sq_line].
  assert (TT : total [sq_line] = c_length sq_line) by (unfold total; cbn; ring). rewrite TT.
  cbn [walk]. unfold local. destruct (Req_EM_T _ _); [lra|]. replace (u * c_length sq_line / c_length sq_line) with u by (field; lra).
  unfold sq_line. rewrite line_eval. apply vec_eq; vec_simpl; ring.
Qed.

Lemma sq_facts T : g_scale T <> 0 -> orthogonal (g_orient T) ->
  n_active (pr_chain (sq_profile T)) = true /\ (forall i, sampled (sq_profile T) (PI / 2) i) /\
  n_point (pr_chain (sq_profile T)) 1 = turn (PI / 2) (n_point (pr_chain (sq_profile T)) 0).
Proof.
  intros S O. split; [reflexivity|]. split.
  - intros i. apply sampled_injective; try assumption; [reflexivity|]. intros u v _ _. rewrite !sq_point. intros E.
    apply (f_equal vy) in E. exact E.
  - rewrite !sq_point. unfold turn. cbn [vx vy vz]. rewrite cos_PI2, sin_PI2. apply vec_eq; cbn; ring.
Qed.

Example C55_example : forall q,
  (exists i s, (i < 4)%nat /\ 0 <= s <= 1 /\ c_eval (boundary_member (sq_profile g_default) (PI / 2) i) s = q) <->
  (exists t, 0 <= t <= 1 /\ boundary_fun (sq_profile g_default) (PI / 2) 4 t = q).
Proof.
  intros q. destruct (sq_facts g_default) as (A & S & P); [cbn; lra|apply rotation_I|].
  pose proof (C55_trivial_transform (sq_profile g_default) (PI / 2) 4 A ltac:(lia) (fun i _ => S i) P eq_refl q) as H.
  replace (INR 4) with 4 in H by (cbn; lra). exact H.
Qed.

(** With any other transform the two forms can be apart: here the chain lies at height 5, the function form at 0. *)
Theorem C55_forms_refuted : exists p pitch,
  n_active (pr_chain p) = true /\ (forall i, sampled p pitch i) /\
  n_point (pr_chain p) 1 = turn pitch (n_point (pr_chain p) 0) /\ 4 * pitch = 2 * PI /\
  forall i s t, 0 <= s <= 1 -> c_eval (boundary_member p pitch i) s <> boundary_fun p pitch 4 t.
Proof.
  set (T := mkG (V 0 0 5) UNIT3X3 1 0). exists (sq_profile T), (PI / 2).
  destruct (sq_facts T) as (A & S & P); [cbn; lra|apply rotation_I|].
  split; [exact A|]. split; [exact S|]. split; [exact P|]. split; [field|].
  intros i s t Hs E. destruct (C55_member (sq_profile T) (PI / 2) i A (S i)) as (_ & _ & M).
  destruct (proj1 (M (boundary_fun (sq_profile T) (PI / 2) 4 t))) as (u & _ & EU); [exists s; split; assumption|].
  apply (f_equal vz) in EU. unfold boundary_fun in EU. rewrite <- turn_rotz, !sq_point, apply_gear_transform_eq in EU.
  cbn [pr_trf sq_profile T g_scale g_orient g_angle g_center] in EU. unfold turn in EU. rewrite <- turn_rotz in EU. unfold turn in EU.
  cbn in EU. lra.
Qed.
