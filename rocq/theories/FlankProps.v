(** Property C89 (fillets of the flank). *)
From Coq Require Import Reals List ZArith Lra Lia Psatz Bool.
From Coquelicot Require Import Coquelicot.
From Verif Require Import Num Vec Transform TransformProps Params Coords CoordsProps Interp Curve CurveLem CurveProps
  ArcLem ArcProps Chain ChainLem ChainProps GearMath RefLines RefLinesProps Profile ProfileLem ProfileProps Fillet FilletProps.
Import ListNotations.
Open Scope R_scope.

(** ** Specification *)
(** A solver whose success flag means that the two centres agree. *)
Definition exact_tan (fs : fsolver) : Prop := forall n1 n2 r s1 s2 g x0 x1,
  fs_tan fs n1 n2 r s1 s2 g = (true, x0, x1) -> exists c, calc_centers n1 n2 r (s1 - x0) (s2 + x1) = Ok (c, c).
(** Inside the half pitch below the tooth's centre line. *)
Definition in_half_pitch (pitch : R) (p : vec) : Prop := - (pitch / 2) < arctan2 (vy p) (vx p) < 0.
(** The mirror plane through the origin. *)
Definition on_plane (nrm p : vec) : Prop := dot p nrm = 0.
(** [p] and [q] are mirror images: the plane halves the segment between them at a right angle. *)
Definition mirror_images (nrm p q : vec) : Prop :=
  on_plane nrm (vadd p q) /\ exists k, k <> 0 /\ vsub q p = smul k nrm.

(** ** Lemmas *)
Lemma set_start_chain pres a l s m : n_set_start pres (Chain a l) s = Ok m -> exists l', m = Chain a l'.
Proof.
  change (n_set_start pres (Chain a l) s) with (bind (get_s_index l s) (fun iu =>
        bind (nth (fst iu) (map (n_set_start false) l) (fun _ => Err IndexError) (snd iu)) (fun m =>
          Ok (Chain a (map refresh ((if pres then map n_deactivate (firstn (fst iu) l) else [])
                                     ++ m :: skipn (S (fst iu)) l)))))).
  destruct (get_s_index l s) as [iu|]; cbn [bind]; [|discriminate].
  destruct (nth _ _ _ _); cbn [bind]; [|discriminate]. intros Q. apply Ok_inj in Q. eauto.
Qed.
Lemma set_end_chain pres a l s m : n_set_end pres (Chain a l) s = Ok m -> exists l', m = Chain a l'.
Proof.
  change (n_set_end pres (Chain a l) s) with (bind (get_s_index l s) (fun iu =>
        bind (nth (fst iu) (map (n_set_end false) l) (fun _ => Err IndexError) (snd iu)) (fun m =>
          Ok (Chain a (map refresh (firstn (fst iu) l ++ m ::
             (if pres then map n_deactivate (skipn (S (fst iu)) l) else []))))))).
  destruct (get_s_index l s) as [iu|]; cbn [bind]; [|discriminate].
  destruct (nth _ _ _ _); cbn [bind]; [|discriminate]. intros Q. apply Ok_inj in Q. eauto.
Qed.

Lemma last_any (l : list curve) d d' : l <> [] -> last l d = last l d'.
Proof. intros N. destruct (exists_last N) as (q & y & ->). rewrite !last_last. reflexivity. Qed.
Lemma hd_any (l : list curve) d d' : l <> [] -> hd d l = hd d' l.
Proof. destruct l; [contradiction|reflexivity]. Qed.

(** An arc put in front of the trimmed flank. *)
Lemma start_arc_ok l t arc d : usable (Chain true l) -> joined (leaves (Chain true l)) -> fresh arc -> c_act arc = true ->
  n_eval (Chain true l) t = Ok (c_eval arc 1) ->
  exists m post, with_start_arc (Chain true l) t arc = Ok m /\ leaves m = arc :: post /\ joined (leaves m) /\ post <> [] /\
    n_eval (Chain true l) t = Ok (c_eval (hd d post) 0) /\
    c_eval (last (leaves m) d) 1 = c_eval (last (leaves (Chain true l)) d) 1.
Proof.
  intros U J F A E. destruct (start_cut (Chain true l) t d U J) as (m & c & u & S & JM & N & P & L & FM & _).
  destruct (set_start_chain _ _ _ _ _ S) as (l' & ->).
  assert (FI : List.Forall fresh (leaves_of (Prim arc :: l'))).
  { change (leaves_of (Prim arc :: l')) with (leaves (Prim arc) ++ leaves (Chain true l')). apply Forall_app.
    split; [cbn [leaves]; rewrite A; repeat constructor; exact F|apply usable_fresh, FM]. }
  exists (Chain true (Prim arc :: l')), (leaves (Chain true l')).
  assert (LV : leaves (Chain true (Prim arc :: l')) = arc :: leaves (Chain true l')).
  { change (leaves (Chain true (Prim arc :: l'))) with (leaves (Prim arc) ++ leaves (Chain true l')).
    cbn [leaves]. rewrite A. reflexivity. }
  split; [|split; [exact LV|split; [|split; [exact N|split; [exact P|]]]]].
  - unfold with_start_arc. rewrite S. cbn [bind]. f_equal. f_equal. unfold ch_insert.
    replace (insert_index (length l') 0) with 0%nat.
    + apply refresh_list, FI.
    + unfold insert_index. cbn. destruct (Z.of_nat (length l') <? 0)%Z eqn:Q; [apply Z.ltb_lt in Q; lia|reflexivity].
  - rewrite LV. rewrite P in E. apply Ok_inj in E. destruct (leaves (Chain true l')) as [|x q]; [contradiction|].
    split; [cbn [hd] in E; congruence|exact JM].
  - rewrite LV. change (arc :: leaves (Chain true l')) with ([arc] ++ leaves (Chain true l')).
    rewrite last_app by exact N. exact L.
Qed.
Lemma end_arc_ok l t arc d : usable (Chain true l) -> joined (leaves (Chain true l)) -> fresh arc -> c_act arc = true ->
  n_eval (Chain true l) t = Ok (c_eval arc 0) ->
  exists m pre, with_end_arc (Chain true l) t arc = Ok m /\ leaves m = pre ++ [arc] /\ joined (leaves m) /\ pre <> [] /\
    n_eval (Chain true l) t = Ok (c_eval (last pre d) 1) /\
    c_eval (hd d (leaves m)) 0 = c_eval (hd d (leaves (Chain true l))) 0.
Proof.
  intros U J F A E. destruct (end_cut (Chain true l) t d U J) as (m & c & u & S & JM & N & P & L & FM & _).
  destruct (set_end_chain _ _ _ _ _ S) as (l' & ->).
  assert (LV : leaves (Chain true (l' ++ [Prim arc])) = leaves (Chain true l') ++ [arc]).
  { change (leaves (Chain true ?x)) with (leaves_of x). rewrite leaves_app. f_equal.
    change (leaves_of [Prim arc]) with (leaves (Prim arc) ++ []). cbn [leaves]. rewrite A. reflexivity. }
  assert (FI : List.Forall fresh (leaves_of (l' ++ [Prim arc]))).
  { change (leaves_of ?x) with (leaves (Chain true x)). rewrite LV. apply Forall_app.
    split; [apply usable_fresh, FM|repeat constructor; exact F]. }
  exists (Chain true (l' ++ [Prim arc])), (leaves (Chain true l')).
  split; [|split; [exact LV|split; [|split; [exact N|split; [exact P|]]]]].
  - unfold with_end_arc. rewrite S. cbn [bind]. f_equal. f_equal. apply refresh_list, FI.
  - rewrite LV. rewrite P in E. apply Ok_inj in E. apply (joined_app (leaves (Chain true l')) [arc]); try assumption; [discriminate|exact I|].
    intros d'. cbn [hd]. rewrite (last_any _ d' d) by exact N. exact E.
  - rewrite LV, hd_app by exact N. exact L.
Qed.

Lemma try_arcs_in f gs : forall g a, try_arcs f g gs = Ok a -> exists k, f k = Ok a.
Proof.
  induction gs as [|g' gs IH]; intros g a; cbn [try_arcs]; destruct (f g) as [b|] eqn:E; cbn [bind]; try discriminate;
    destruct (af_ok b); try (intros Q; apply Ok_inj in Q; subst; eauto; fail). apply IH.
Qed.
Lemma calc_tangent_exact fs n1 n2 r s1 s2 a : exact_tan fs -> calc_tangent_arc fs n1 n2 r s1 s2 = Ok a -> af_ok a = true ->
  tangent_arc n1 n2 r (af_t1 a) (af_t2 a) = Ok (af_arc a) /\ exists c, calc_centers n1 n2 r (af_t1 a) (af_t2 a) = Ok (c, c).
Proof.
  intros EX C OK. split; [exact (calc_tangent_arc_arc _ _ _ _ _ _ _ C)|].
  unfold calc_tangent_arc in C. destruct (fs_tan fs n1 n2 r s1 s2 0) as [[ok x0] x1] eqn:E.
  destruct (tangent_arc n1 n2 r (s1 - x0) (s2 + x1)); cbn [bind] in C; [|discriminate]. apply Ok_inj in C. subst a.
  cbn [af_ok af_t1 af_t2] in *. subst ok. exact (EX _ _ _ _ _ _ _ _ E).
Qed.
Lemma angle_check_iff pitch p : angle_check pitch p = true <-> in_half_pitch pitch p.
Proof.
  unfold angle_check, in_half_pitch, lt_b. cbv zeta. split.
  - intros H. apply andb_true_iff in H. destruct H as (A & B).
    destruct (Rlt_dec 0 _); [|discriminate]. destruct (Rlt_dec (- _) _); [|discriminate]. lra.
  - intros H. destruct (Rlt_dec 0 _); [|lra]. destruct (Rlt_dec (- _) _); [reflexivity|lra].
Qed.

(** ** C89: the fillet to a circle *)
(** What the search found, in the branch that fillets to the circle. *)
Definition found (fs : fsolver) (tooth : node) (pitch : R) (circle : curve) (radius : R) (root : bool) (a : arc_found) : Prop :=
  exists x0 x1, fs_meet fs tooth circle (1 / 2) (- pitch / (2 * PI) / 4 * (101 / 100)) = (true, x0, x1) /\
    in_half_pitch pitch (c_eval circle x1) /\
    try_arcs (fillet_attempt fs tooth circle radius x0 x1 root) (1 / 2) [1; 3 / 2] = Ok a /\
    in_half_pitch pitch (c_eval (af_arc a) 0) /\ in_half_pitch pitch (c_eval (af_arc a) 1).

(** The code takes that branch exactly when such an arc is found; otherwise it goes on with the sharp one. *)
Theorem C89_branch fs tooth pitch circle radius root m : apply_fillet fs tooth pitch circle radius root = Ok m ->
  (exists a, found fs tooth pitch circle radius root a /\
     (if root then with_start_arc tooth (af_t2 a) (af_arc a) else with_end_arc tooth (af_t1 a) (af_arc a)) = Ok m) \/
  ((forall a, ~ found fs tooth pitch circle radius root a) /\ sharp_fillet fs tooth pitch radius root = Ok m).
Proof.
  unfold apply_fillet, found. destruct (fs_meet _ _ _ _ _) as [[ok x0] x1]. destruct ok; cbn [andb].
  2: { intros H. right. split; [|exact H]. intros a (y0 & y1 & Q & _). congruence. }
  destruct (angle_check pitch (c_eval circle x1)) eqn:A.
  2: { intros H. right. split; [|exact H]. intros a (y0 & y1 & Q & B & _). injection Q as <- <-. apply angle_check_iff in B. congruence. }
  destruct (try_arcs _ _ _) as [a|] eqn:T; cbn [bind]; [|discriminate].
  destruct (angle_check pitch (c_eval (af_arc a) 0) && angle_check pitch (c_eval (af_arc a) 1)) eqn:B.
  - intros H. left. exists a. split; [|exact H]. apply andb_true_iff in B. destruct B as (B0 & B1).
    apply angle_check_iff in A, B0, B1. exists x0, x1. auto.
  - intros H. right. split; [|exact H]. intros a' (y0 & y1 & Q & _ & Q2 & B0 & B1). injection Q as <- <-.
    rewrite T in Q2. apply Ok_inj in Q2. subst a'. apply angle_check_iff in B0, B1. rewrite B0, B1 in B. discriminate.
Qed.

Lemma found_exact fs tooth pitch circle radius root a : exact_tan fs -> af_ok a = true -> found fs tooth pitch circle radius root a ->
  exists c, if root then tangent_arc (Prim circle) tooth radius (af_t1 a) (af_t2 a) = Ok (af_arc a) /\
                        calc_centers (Prim circle) tooth radius (af_t1 a) (af_t2 a) = Ok (c, c)
            else tangent_arc tooth (Prim circle) radius (af_t1 a) (af_t2 a) = Ok (af_arc a) /\
                 calc_centers tooth (Prim circle) radius (af_t1 a) (af_t2 a) = Ok (c, c).
Proof.
  intros EX OK (x0 & x1 & _ & _ & T & _). destruct (try_arcs_in _ _ _ _ T) as (k & K). unfold fillet_attempt in K. cbv zeta in K.
  destruct root; destruct (calc_tangent_exact _ _ _ _ _ _ _ EX K OK) as (TA & c & CC); exists c; split; assumption.
Qed.

(** A root fillet found by a successful search: the flank starts on the circle with an arc of the given radius that
    leaves the circle in its direction and runs into what is left of the flank; the tip stays. *)
Theorem C89_root fs l pitch circle radius a d : usable (Chain true l) -> joined (leaves (Chain true l)) -> plain circle ->
  exact_tan fs -> 0 < radius -> found fs (Chain true l) pitch circle radius true a -> af_ok a = true ->
  exists m post c, apply_fillet fs (Chain true l) pitch circle radius true = Ok m /\
    leaves m = af_arc a :: post /\ joined (leaves m) /\ post <> [] /\
    c_eval (hd d (leaves m)) 0 = c_eval circle (af_t1 a) /\ same_direction (c_eval circle) (af_t1 a) (c_eval (af_arc a)) 0 /\
    n_eval (Chain true l) (af_t2 a) = Ok (c_eval (hd d post) 0) /\
    (forall s, norm (vsub (c_eval (af_arc a) s) c) = radius) /\
    c_eval (last (leaves m) d) 1 = c_eval (last (leaves (Chain true l)) d) 1 /\
    in_half_pitch pitch (c_eval (hd d (leaves m)) 0).
Proof.
  intros U J PL EX R0 FD OK. destruct (found_exact _ _ _ _ _ _ _ EX OK FD) as (c & TA & CC).
  destruct (exact_arc _ _ _ _ _ _ _ TA (Rgt_not_eq radius 0 R0) CC) as (E0 & E1 & F & A & _ & _).
  cbn [n_eval] in E0. apply Ok_inj in E0.
  destruct (start_arc_ok l (af_t2 a) (af_arc a) d U J F A E1) as (m & post & W & LV & JM & N & P & L).
  destruct (calc_centers_inv _ _ _ _ _ _ CC) as (p1 & p2 & d1 & d2 & P1 & P2 & D1 & D2).
  destruct (C88_tangent_start circle (Chain true l) radius (af_t1 a) (af_t2 a) p2 d2 c PL P2 D2 R0 CC) as (arc & TA' & SD).
  rewrite TA in TA'. apply Ok_inj in TA'. subst arc.
  destruct (C88_tangent_arc _ _ _ _ _ _ _ _ _ _ P1 P2 D1 D2 (Rgt_not_eq radius 0 R0) CC) as (arc & th & TA' & _ & _ & RD & _).
  rewrite TA in TA'. apply Ok_inj in TA'. subst arc. rewrite Rabs_right in RD by lra.
  exists m, post, c. rewrite LV in *. cbn [hd]. split; [|split; [reflexivity|split; [exact JM|split; [exact N|split; [congruence|split; [exact SD|split; [exact P|split; [exact RD|split; [exact L|destruct FD as (? & ? & _ & _ & _ & B0 & B1); assumption]]]]]]]]].
  destruct FD as (x0 & x1 & M & B & T & B0 & B1). unfold apply_fillet. rewrite M.
  apply angle_check_iff in B, B0, B1. rewrite B. cbn [andb]. rewrite T. cbn [bind]. rewrite B0, B1. exact W.
Qed.
Theorem C89_tip fs l pitch circle radius a d : usable (Chain true l) -> joined (leaves (Chain true l)) -> plain circle ->
  exact_tan fs -> 0 < radius -> found fs (Chain true l) pitch circle radius false a -> af_ok a = true ->
  exists m pre c, apply_fillet fs (Chain true l) pitch circle radius false = Ok m /\
    leaves m = pre ++ [af_arc a] /\ joined (leaves m) /\ pre <> [] /\
    c_eval (last (leaves m) d) 1 = c_eval circle (af_t2 a) /\ same_direction (c_eval circle) (af_t2 a) (c_eval (af_arc a)) 1 /\
    n_eval (Chain true l) (af_t1 a) = Ok (c_eval (last pre d) 1) /\
    (forall s, norm (vsub (c_eval (af_arc a) s) c) = radius) /\
    c_eval (hd d (leaves m)) 0 = c_eval (hd d (leaves (Chain true l))) 0 /\
    in_half_pitch pitch (c_eval (last (leaves m) d) 1).
Proof.
  intros U J PL EX R0 FD OK. destruct (found_exact _ _ _ _ _ _ _ EX OK FD) as (c & TA & CC).
  destruct (exact_arc _ _ _ _ _ _ _ TA (Rgt_not_eq radius 0 R0) CC) as (E0 & E1 & F & A & _ & _).
  cbn [n_eval] in E1. apply Ok_inj in E1.
  destruct (end_arc_ok l (af_t1 a) (af_arc a) d U J F A E0) as (m & pre & W & LV & JM & N & P & L).
  destruct (calc_centers_inv _ _ _ _ _ _ CC) as (p1 & p2 & d1 & d2 & P1 & P2 & D1 & D2).
  destruct (C88_tangent_end (Chain true l) circle radius (af_t1 a) (af_t2 a) p1 d1 c PL P1 D1 R0 CC) as (arc & TA' & SD).
  rewrite TA in TA'. apply Ok_inj in TA'. subst arc.
  destruct (C88_tangent_arc _ _ _ _ _ _ _ _ _ _ P1 P2 D1 D2 (Rgt_not_eq radius 0 R0) CC) as (arc & th & TA' & _ & _ & RD & _).
  rewrite TA in TA'. apply Ok_inj in TA'. subst arc. rewrite Rabs_right in RD by lra.
  exists m, pre, c. rewrite LV in *. rewrite last_last. split; [|split; [reflexivity|split; [exact JM|split; [exact N|split; [congruence|split; [exact SD|split; [exact P|split; [exact RD|split; [exact L|destruct FD as (? & ? & _ & _ & _ & B0 & B1); assumption]]]]]]]]].
  destruct FD as (x0 & x1 & M & B & T & B0 & B1). unfold apply_fillet. rewrite M.
  apply angle_check_iff in B, B0, B1. rewrite B. cbn [andb]. rewrite T. cbn [bind]. rewrite B0, B1. exact W.
Qed.

(** ** C89: the sharp case *)
Lemma exact_frame n1 n2 r t1 t2 arc c : tangent_arc n1 n2 r t1 t2 = Ok arc -> r <> 0 -> calc_centers n1 n2 r t1 t2 = Ok (c, c) ->
  exists p1 p2 u v z e th, arc_frame p1 p2 u v c z e r th /\ arc = from_2_point_center p1 p2 c 0 true /\
    n_eval n1 t1 = Ok p1 /\ n_eval n2 t2 = Ok p2.
Proof.
  intros TA R0 CC. destruct (calc_centers_inv _ _ _ _ _ _ CC) as (p1 & p2 & d1 & d2 & P1 & P2 & D1 & D2).
  pose proof CC as CO. unfold calc_centers in CO.
  rewrite P1, P2, D1, D2 in CO. cbn [bind] in CO. apply centers_ok in CO. destruct CO as (N1 & N2 & NX & C1 & C2).
  set (u := normalize d1) in *. set (v := normalize d2) in *.
  assert (U : dot u u = 1) by (apply normalize_dot; exact N1).
  assert (W : dot v v = 1) by (apply normalize_dot; exact N2).
  destruct (turn_frame u v U W NX) as (Z & ZU & T & CZ & EV).
  set (z := normalize (cross u v)) in *. set (th := angle_between u v) in *.
  exists p1, p2, u, v, z, (cross z u), th. split; [repeat split; try tauto; congruence|]. split; [|auto].
  assert (MID : smul (/ 2) (vadd c c) = c) by (clear; destruct c; apply vec_eq; vec_simpl; field).
  unfold tangent_arc in TA. rewrite CC, P1, P2 in TA. cbn [bind fst snd] in TA. rewrite MID in TA. apply Ok_inj in TA. congruence.
Qed.

Lemma frame_mid p1 p2 u v c z e r th : arc_frame p1 p2 u v c z e r th ->
  let arc := from_2_point_center p1 p2 c 0 true in
  (exists k, 0 < k /\ velocity (c_eval arc) (1 / 2) (smul k (vsub p2 p1))) /\ p1 <> p2 /\
  dot (vsub (c_eval arc (1 / 2)) (smul (/ 2) (vadd p1 p2))) (vsub p2 p1) = 0.
Proof.
  intros H arc. destruct (arc_between _ _ _ _ _ _ _ _ _ H) as (EV & _). fold arc in EV.
  destruct (frame_facts _ _ _ _ _ _ _ _ _ H) as (ZE & EZ & EU & DE & UE & E1 & E2).
  destruct H as (U & Z & ZU & T & R0 & EE & EW & C1 & C2).
  set (h := th * (1 / 2)). assert (HH : 0 < h < PI / 2) by (unfold h; lra).
  assert (SH : 0 < sin h) by (apply sin_gt_0; lra).
  assert (TH : th = 2 * h) by (unfold h; field).
  assert (S2 : sin th = 2 * sin h * cos h) by (rewrite TH; apply sin_2a).
  assert (C2' : cos th = 1 - 2 * sin h * sin h) by (rewrite TH; apply cos_2a_sin).
  assert (DD : vsub p2 p1 = smul (2 * r * sin h) (vadd (smul (cos h) u) (smul (sin h) e))).
  { replace (vsub p2 p1) with (vsub (vsub p2 c) (vsub p1 c)) by (clear; vec_ring). rewrite E1, E2, S2, C2'.
    generalize (sin h) (cos h). clear. vec_ring. }
  assert (MM : vadd p1 p2 = vadd (smul 2 c) (smul (2 * r * cos h) (vadd (smul (sin h) u) (smul (- cos h) e)))).
  { replace (vadd p1 p2) with (vadd (smul 2 c) (vadd (vsub p2 c) (vsub p1 c))) by (clear; vec_ring). rewrite E1, E2, S2, C2'.
    replace (1 - 2 * sin h * sin h) with (2 * (cos h * cos h) - 1).
    - generalize (sin h) (cos h). clear. vec_ring.
    - pose proof (sin2_cos2 h) as SC. unfold Rsqr in SC. lra. }
  pose proof (sin2_cos2 h) as SC. unfold Rsqr in SC.
  split; [|split].
  - exists (th / (2 * sin h)). split; [apply Rdiv_lt_0_compat; lra|].
    replace (smul (th / (2 * sin h)) (vsub p2 p1)) with (smul (r * th) (vadd (smul (cos h) u) (smul (sin h) e))).
    + unfold h. clear - EV. clearbody arc.
      split; [|split]; (eapply is_derive_ext; [intros t; rewrite EV; reflexivity|]);
        destruct c as [c1 c2 c3], u as [u1 u2 u3], e as [e1 e2 e3]; cbn [vx vy vz vadd smul]; auto_derive; try exact I; ring.
    + rewrite DD. transitivity (smul (th / (2 * sin h) * (2 * r * sin h)) (vadd (smul (cos h) u) (smul (sin h) e))).
      * f_equal. field. lra.
      * generalize (th / (2 * sin h)) (2 * r * sin h) (cos h) (sin h). clear. vec_ring.
  - intros Q. rewrite Q in DD. assert (K : dot (vadd (smul (cos h) u) (smul (sin h) e)) (vadd (smul (cos h) u) (smul (sin h) e)) = 1).
    { transitivity (cos h * cos h * dot u u + sin h * sin h * dot e e + 2 * sin h * cos h * dot e u);
        [generalize (sin h) (cos h); clear; vec_ring|]. rewrite U, DE, UE. lra. }
    assert (K2 : dot (vsub p2 p2) (vsub p2 p2) = 0) by (clear; vec_ring).
    rewrite DD, dot_smul_l, dot_smul_r, K in K2.
    apply Rmult_integral in K2. assert (N : 2 * r * sin h <> 0).
    { apply Rmult_integral_contrapositive_currified; [|lra]. apply Rmult_integral_contrapositive_currified; lra. }
    destruct K2 as [K2|K2]; [contradiction|]. apply N. lra.
  - rewrite DD, MM, EV. fold h.
    transitivity ((r * sin h - r * cos h * sin h) * (2 * r * sin h * cos h) * dot u u
      + (- r * cos h + r * cos h * cos h) * (2 * r * sin h * sin h) * dot e e
      + ((r * sin h - r * cos h * sin h) * (2 * r * sin h * sin h) + (- r * cos h + r * cos h * cos h) * (2 * r * sin h * cos h)) * dot e u).
    + generalize (sin h) (cos h). clear. intros s k. destruct c as [c1 c2 c3], u as [u1 u2 u3], e as [e1 e2 e3]. vec_simpl. field.
    + rewrite U, DE, UE. ring.
Qed.
Lemma arc_halves p1 p2 c : let arc := from_2_point_center p1 p2 c 0 true in forall s,
  c_eval (set_start_on arc (1 / 2)) s = c_eval arc (1 / 2 + s / 2) /\ c_eval (set_end_on arc (1 / 2)) s = c_eval arc (s / 2).
Proof.
  intros arc s.
  assert (SH : exists r a m, c_shape arc = SArc r a c m /\ fresh arc /\ c_t0 arc = 0 /\ c_t1 arc = 1).
  { unfold arc, from_2_point_center, arc_from_frame, arc_curve. destruct (as_euler_zyx _) as [[yaw pitch] roll].
    do 3 eexists. split; [reflexivity|]. split; [apply new_fresh|]. split; reflexivity. }
  clearbody arc. destruct SH as (r & a & m & E & F & T0 & T1).
  assert (S2 : s2t arc (1 / 2) = 1 / 2).
  { destruct (fresh_arc arc r a c m F E) as (T & S & _). rewrite (s2t_two_points arc _ S T), T0, T1. field. }
  split.
  - assert (E1 : c_shape (set_start_on arc (1 / 2)) = SArc r a c m) by (unfold set_start_on; rewrite update_shape; exact E).
    rewrite (arc_fresh_at _ _ _ _ _ s (set_start_fresh _ _) E1), (arc_fresh_at _ _ _ _ _ _ F E). unfold set_start_on.
    rewrite update_t0, update_t1. cbn [with_domain c_t0 c_t1]. rewrite S2, T0, T1. cbv zeta.
    replace (a * (1 / 2 + (1 - 1 / 2) * s)) with (a * (0 + (1 - 0) * (1 / 2 + s / 2))) by field. reflexivity.
  - assert (E1 : c_shape (set_end_on arc (1 / 2)) = SArc r a c m) by (unfold set_end_on; rewrite update_shape; exact E).
    rewrite (arc_fresh_at _ _ _ _ _ s (set_end_fresh _ _) E1), (arc_fresh_at _ _ _ _ _ _ F E). unfold set_end_on.
    rewrite update_t0, update_t1. cbn [with_domain c_t0 c_t1]. rewrite S2, T0, T1. cbv zeta.
    replace (a * (0 + (1 / 2 - 0) * s)) with (a * (0 + (1 - 0) * (s / 2))) by field. reflexivity.
Qed.
Lemma velocity_reparam f s a b v : velocity f (a + b * s) v -> velocity (fun u => f (a + b * u)) s (smul b v).
Proof.
  assert (K : forall (g : R -> R) w, is_derive g (a + b * s) w -> is_derive (fun u => g (a + b * u)) s (b * w)).
  { intros g w D. apply (is_derive_comp g (fun u => a + b * u) s w b D). auto_derive; [exact I|ring]. }
  intros (X & Y & Z). destruct v as [x y z]. cbn [smul vx vy vz] in *.
  split; [|split]; [apply (K (fun u => vx (f u))), X|apply (K (fun u => vy (f u))), Y|apply (K (fun u => vz (f u))), Z].
Qed.
Lemma velocity_ext f g s v : (forall u, f u = g u) -> velocity f s v -> velocity g s v.
Proof.
  intros E (X & Y & Z). split; [|split]; (eapply is_derive_ext; [intros t; rewrite <- E; reflexivity|]); assumption.
Qed.

Lemma sharp_half n1 n2 r t1 t2 arc c nrm : tangent_arc n1 n2 r t1 t2 = Ok arc -> 0 < r -> calc_centers n1 n2 r t1 t2 = Ok (c, c) ->
  mirror_images nrm (c_eval arc 0) (c_eval arc 1) ->
  on_plane nrm (c_eval arc (1 / 2)) /\ (exists k, k <> 0 /\ velocity (c_eval arc) (1 / 2) (smul k nrm)) /\
  (forall s, c_eval (set_start_on arc (1 / 2)) s = c_eval arc (1 / 2 + s / 2)) /\
  (forall s, c_eval (set_end_on arc (1 / 2)) s = c_eval arc (s / 2)).
Proof.
  intros TA R0 CC (OP & k & K & E).
  destruct (exact_frame _ _ _ _ _ _ _ TA (Rgt_not_eq r 0 R0) CC) as (p1 & p2 & u & v & z & e & th & AF & EA & P1 & P2).
  destruct (arc_between_facts _ _ _ _ _ _ _ _ _ AF) as (E0 & E1 & _). destruct (frame_mid _ _ _ _ _ _ _ _ _ AF) as ((q & Q & VL) & NE & DT).
  rewrite <- EA in *. rewrite E0, E1 in *.
  split; [|split; [|split; [intros s; subst arc; apply (proj1 (arc_halves p1 p2 c s))|intros s; subst arc; apply (proj2 (arc_halves p1 p2 c s))]]].
  - rewrite E, dot_smul_r in DT. apply Rmult_integral in DT. destruct DT as [|DT]; [contradiction|].
    unfold on_plane in *. transitivity (dot (vsub (c_eval arc (1 / 2)) (smul (/ 2) (vadd p1 p2))) nrm + / 2 * dot (vadd p1 p2) nrm).
    + generalize (c_eval arc (1 / 2)). clear. vec_ring.
    + rewrite DT, OP. ring.
  - exists (q * k). split; [apply Rmult_integral_contrapositive_currified; lra|].
    replace (smul (q * k) nrm) with (smul q (vsub p2 p1)); [exact VL|]. rewrite E. clear. vec_ring.
Qed.

(** When the flank does not meet the circle usefully, the fillet is half of an arc to the neighbouring (mirrored) flank.
    If the two places found are mirror images, the flank starts on the mirror plane, at a right angle to it, so that it
    continues smoothly into its mirror image. *)
Theorem C89_sharp_root fs l pitch radius a d : usable (Chain true l) -> joined (leaves (Chain true l)) -> exact_tan fs -> 0 < radius ->
  let nrm := rotate_vector UP (- pitch / 2) in let q := radius / n_length (Chain true l) in
  calc_tangent_arc fs (Prim (mirrored_flank (Chain true l) nrm)) (Chain true l) radius (1 - q) (0 + q) = Ok a -> af_ok a = true ->
  mirror_images nrm (c_eval (af_arc a) 0) (c_eval (af_arc a) 1) ->
  exists m post, sharp_fillet fs (Chain true l) pitch radius true = Ok m /\ leaves m = set_start_on (af_arc a) (1 / 2) :: post /\
    joined (leaves m) /\ post <> [] /\ on_plane nrm (c_eval (hd d (leaves m)) 0) /\
    (exists k, k <> 0 /\ velocity (c_eval (hd d (leaves m))) 0 (smul k nrm)) /\
    n_eval (Chain true l) (af_t2 a) = Ok (c_eval (hd d post) 0) /\
    c_eval (last (leaves m) d) 1 = c_eval (last (leaves (Chain true l)) d) 1.
Proof.
  intros U J EX R0 nrm q CT OK MI. destruct (calc_tangent_exact _ _ _ _ _ _ _ EX CT OK) as (TA & c & CC).
  destruct (exact_arc _ _ _ _ _ _ _ TA (Rgt_not_eq radius 0 R0) CC) as (E0 & E1 & F & A & _ & ND).
  destruct (sharp_half _ _ _ _ _ _ _ nrm TA R0 CC MI) as (OP & (k & K & VL) & HS & _).
  destruct (C29_set_start_on (af_arc a) (1 / 2) F ND) as (_ & H1).
  destruct (start_arc_ok l (af_t2 a) (set_start_on (af_arc a) (1 / 2)) d U J (set_start_fresh _ _)) as (m & post & W & LV & JM & N & P & L).
  { unfold set_start_on. rewrite update_act. exact A. }
  { rewrite H1. exact E1. }
  exists m, post. split; [unfold sharp_fillet; fold nrm q; rewrite CT; exact W|].
  rewrite LV in *. cbn [hd]. split; [reflexivity|]. split; [exact JM|]. split; [exact N|].
  split; [rewrite HS; replace (1 / 2 + 0 / 2) with (1 / 2) by field; exact OP|].
  split; [|split; [exact P|exact L]]. exists (/ 2 * k). split; [apply Rmult_integral_contrapositive_currified; lra|].
  apply velocity_ext with (fun u => c_eval (af_arc a) (1 / 2 + / 2 * u)).
  { intros u. rewrite HS. f_equal. field. }
  replace (smul (/ 2 * k) nrm) with (smul (/ 2) (smul k nrm)) by (generalize nrm; clear; vec_ring).
  apply velocity_reparam. replace (1 / 2 + / 2 * 0) with (1 / 2) by field. exact VL.
Qed.
Theorem C89_sharp_tip fs l pitch radius a d : usable (Chain true l) -> joined (leaves (Chain true l)) -> exact_tan fs -> 0 < radius ->
  let q := radius / n_length (Chain true l) in
  calc_tangent_arc fs (Chain true l) (Prim (mirrored_flank (Chain true l) UP)) radius (1 - q) (0 + q) = Ok a -> af_ok a = true ->
  mirror_images UP (c_eval (af_arc a) 0) (c_eval (af_arc a) 1) ->
  exists m pre, sharp_fillet fs (Chain true l) pitch radius false = Ok m /\ leaves m = pre ++ [set_end_on (af_arc a) (1 / 2)] /\
    joined (leaves m) /\ pre <> [] /\ on_plane UP (c_eval (last (leaves m) d) 1) /\
    (exists k, k <> 0 /\ velocity (c_eval (last (leaves m) d)) 1 (smul k UP)) /\
    n_eval (Chain true l) (af_t1 a) = Ok (c_eval (last pre d) 1) /\
    c_eval (hd d (leaves m)) 0 = c_eval (hd d (leaves (Chain true l))) 0.
Proof.
  intros U J EX R0 q CT OK MI. destruct (calc_tangent_exact _ _ _ _ _ _ _ EX CT OK) as (TA & c & CC).
  destruct (exact_arc _ _ _ _ _ _ _ TA (Rgt_not_eq radius 0 R0) CC) as (E0 & E1 & F & A & _ & ND).
  destruct (sharp_half _ _ _ _ _ _ _ UP TA R0 CC MI) as (OP & (k & K & VL) & _ & HS).
  destruct (C29_set_end_on (af_arc a) (1 / 2) F ND) as (_ & H0).
  destruct (end_arc_ok l (af_t1 a) (set_end_on (af_arc a) (1 / 2)) d U J (set_end_fresh _ _)) as (m & pre & W & LV & JM & N & P & L).
  { unfold set_end_on. rewrite update_act. exact A. }
  { rewrite H0. exact E0. }
  exists m, pre. split; [unfold sharp_fillet; fold q; rewrite CT; exact W|].
  rewrite LV in *. rewrite last_last. split; [reflexivity|]. split; [exact JM|]. split; [exact N|].
  split; [rewrite HS; exact OP|].
  split; [|split; [exact P|exact L]]. exists (/ 2 * k). split; [apply Rmult_integral_contrapositive_currified; lra|].
  apply velocity_ext with (fun u => c_eval (af_arc a) (0 + / 2 * u)).
  { intros u. rewrite HS. f_equal. field. }
  replace (smul (/ 2 * k) UP) with (smul (/ 2) (smul k UP)) by (generalize UP; clear; vec_ring).
  apply velocity_reparam. replace (0 + / 2 * 1) with (1 / 2) by field. exact VL.
Qed.
Lemma mirror_func_images nrm p : nrm <> ORIGIN -> ~ on_plane nrm p -> mirror_images nrm (mirror_func (normalize nrm) ORIGIN p) p.
Proof.
  intros N NP. set (u := normalize nrm). pose proof (norm_pos nrm N) as L.
  assert (U : dot u u = 1) by (apply normalize_dot, N). assert (EN : nrm = smul (norm nrm) u) by (apply normalize_eq, N).
  assert (D : dot p u <> 0). { intros Q. apply NP. unfold on_plane. rewrite EN, dot_smul_r, Q. ring. }
  split.
  - unfold on_plane. rewrite EN, dot_smul_r. replace (dot (vadd (mirror_func u ORIGIN p) p) u) with (2 * dot p u * (1 - dot u u))
      by (unfold mirror_func; clear; clearbody u; vec_ring). rewrite U. ring.
  - exists (2 * dot p u / norm nrm). split.
    + unfold Rdiv. apply Rmult_integral_contrapositive_currified; [lra|apply Rinv_neq_0_compat; lra].
    + rewrite EN at 2. transitivity (smul (2 * dot p u) u); [unfold mirror_func; clear; clearbody u; vec_ring|].
      transitivity (smul (2 * dot p u / norm nrm * norm nrm) u); [f_equal; field; lra|].
      generalize (2 * dot p u / norm nrm) (norm nrm). clear; clearbody u. vec_ring.
Qed.

(** The circles the code fillets to are circles in the sense of the theorems. *)
Lemma ref_circle_plain r z : r <> 0 -> plain (ref_circle (V r 0 z)).
Proof.
  intros H. unfold ref_circle. cbn [vz]. unfold from_point_center_angle.
  assert (E : vsub (V r 0 z) (smul z OUT) = V r 0 0) by (apply vec_eq; vec_simpl; ring). rewrite E, norm_xz.
  unfold arc_from_frame, arc_curve. destruct (as_euler_zyx _) as [[yaw pitch] roll].
  split; [apply new_fresh|]. rewrite arc_new_shape. split; [cbn; lra|]. right. do 4 eexists. split; [reflexivity|].
  split; [apply rotation_euler|]. split; [apply Rabs_pos_lt, H|]. pose proof PI_RGT_0. split; [lra|].
  cbn [c_t0 c_t1 new_curve update_lengths c_shape]. rewrite Rabs_right by lra. unfold DELTA. lra.
Qed.

(** ** Examples *)
Definition one_line (p q : vec) : list node := [Prim (line_curve p q true)].
Lemma one_line_length p q : n_length (Chain true (one_line p q)) = norm (vsub q p).
Proof.
  change (n_length (Chain true (one_line p q))) with (c_length (line_curve p q true) + 0). rewrite line_curve_length. ring.
Qed.
Lemma one_line_usable p q : p <> q -> usable (Chain true (one_line p q)) /\ joined (leaves (Chain true (one_line p q))).
Proof.
  intros H. split; [|exact I]. split; [reflexivity|]. split.
  - apply trimmable_wf, line_trimmable, H.
  - constructor; [apply line_usable|constructor].
Qed.
Lemma one_line_eval p q s : p <> q -> n_eval (Chain true (one_line p q)) s = Ok (vadd (smul (1 - s) p) (smul s q)).
Proof.
  intros H. assert (LP : 0 < norm (vsub q p)).
  { apply norm_pos. intros Z. apply H. rewrite <- (vadd_vsub q p), Z. symmetry. apply vadd_0_l. }
  rewrite C37_travel by (apply trimmable_wf, line_trimmable, H). f_equal.
  change (leaves_of (one_line p q)) with [line_curve p q true]. unfold total. cbn [map lsum walk]. unfold local.
  rewrite line_curve_length. destruct (Req_EM_T _ 0); [lra|]. rewrite line_eval.
  replace (s * (norm (vsub q p) + 0) / norm (vsub q p)) with s by (field; lra). reflexivity.
Qed.
Lemma one_line_derivative p q s : p <> q -> n_derivative (Chain true (one_line p q)) s = Ok (vsub q p).
Proof.
  intros H. unfold n_derivative. rewrite !one_line_eval by exact H. cbn [bind]. f_equal. unfold DELTA.
  destruct p as [a b c], q as [a' b' c']. apply vec_eq; vec_simpl; field.
Qed.

(** A solver that knows one pair of places and says truthfully whether the centres agree there. *)
Definition places_solver (meet : bool * R * R) (t1 t2 : R) : fsolver :=
  mkFs (fun n1 n2 r s1 s2 _ =>
          (match calc_centers n1 n2 r t1 t2 with Ok (a, b) => if vec_eq_dec a b then true else false | Err _ => false end,
           s1 - t1, t2 - s2))
       (fun _ _ _ _ => meet) (fun _ _ _ => (false, 0)).
Lemma places_exact meet t1 t2 : exact_tan (places_solver meet t1 t2).
Proof.
  intros n1 n2 r s1 s2 g x0 x1 H. cbn [places_solver fs_tan] in H.
  destruct (calc_centers n1 n2 r t1 t2) as [[a b]|] eqn:E; [|discriminate]. destruct (vec_eq_dec a b) as [->|]; [|discriminate].
  injection H as <- <-. exists b. replace (s1 - (s1 - t1)) with t1 by ring. replace (s2 + (t2 - s2)) with t2 by ring. exact E.
Qed.
Lemma places_arc meet t1 t2 n1 n2 r s1 s2 c arc : calc_centers n1 n2 r t1 t2 = Ok (c, c) -> tangent_arc n1 n2 r t1 t2 = Ok arc ->
  calc_tangent_arc (places_solver meet t1 t2) n1 n2 r s1 s2 = Ok (mkAf arc t1 t2 true).
Proof.
  intros CC TA. unfold calc_tangent_arc. cbn [places_solver fs_tan]. rewrite CC. destruct (vec_eq_dec c c) as [_|N]; [|congruence].
  replace (s1 - (s1 - t1)) with t1 by ring. replace (s2 + (t2 - s2)) with t2 by ring. rewrite TA. reflexivity.
Qed.
Lemma fourth_quadrant p : 0 < vx p -> vy p < 0 -> in_half_pitch PI p.
Proof.
  intros X Y. unfold in_half_pitch, arctan2. destruct (Rlt_dec 0 (vx p)); [|contradiction].
  pose proof (atan_bound (vy p / vx p)) as (B & _). split; [lra|].
  rewrite <- atan_0. apply atan_increasing. replace 0 with (0 / vx p) by (field; lra). unfold Rdiv.
  apply Rmult_lt_compat_r; [apply Rinv_0_lt_compat; exact X|exact Y].
Qed.

(** A radial flank meeting a circle of radius 2, filleted with radius 3. *)
Definition radial : list node := one_line (V (8 / 5) (- 6 / 5) 0) (V (24 / 5) (- 18 / 5) 0).
Definition touch : R := arctan2 (- 24) 7 / (2 * PI).
Lemma radial_ne : V (8 / 5) (- 6 / 5) 0 <> V (24 / 5) (- 18 / 5) 0.
Proof. intros Q. apply (f_equal vx) in Q. cbn in Q. lra. Qed.
Lemma touch_cs : cos (2 * PI * touch) = 7 / 25 /\ sin (2 * PI * touch) = - 24 / 25.
Proof.
  assert (P : 0 < PI) by apply PI_RGT_0. unfold touch. replace (2 * PI * (arctan2 (-24) 7 / (2 * PI))) with (arctan2 (-24) 7) by (field; lra).
  destruct (arctan2_cos_sin (- 24) 7) as (C & S).
  assert (Q : sqrt (7 * 7 + -24 * -24) = 25) by (replace (7 * 7 + -24 * -24) with (25 * 25) by ring; apply sqrt_square; lra).
  rewrite Q in C, S. lra.
Qed.
Lemma radial_centers : calc_centers (Prim (ref_circle (V 2 0 0))) (Chain true radial) 3 touch (1 / 2) =
  Ok (V (7 / 5) (- 24 / 5) 0, V (7 / 5) (- 24 / 5) 0).
Proof.
  destruct (ref_circle_at 2 0 ltac:(lra)) as (EV & _). destruct touch_cs as (C & S).
  unfold calc_centers, radial. rewrite one_line_eval, one_line_derivative by exact radial_ne. cbn [n_eval bind].
  unfold n_derivative. cbn [n_eval bind]. rewrite !EV.
  assert (P : 0 < PI) by apply PI_RGT_0. set (y := 2 * PI * DELTA).
  replace (2 * PI * (touch + DELTA)) with (2 * PI * touch + y) by (unfold y; ring).
  replace (2 * PI * (touch - DELTA)) with (2 * PI * touch - y) by (unfold y; ring).
  rewrite cos_plus, cos_minus, sin_plus, sin_minus, C, S.
  assert (SY : 0 < sin y) by (apply sin_gt_0; unfold y, DELTA; lra).
  match goal with |- centers_of _ _ ?v ?w _ = _ =>
    replace v with (smul (2 * sin y / DELTA) (V (24 / 25) (7 / 25) 0))
      by (unfold DELTA; generalize (sin y) (cos y); clear; intros a b; apply vec_eq; vec_simpl; field);
    replace w with (smul 4 (V (4 / 5) (- 3 / 5) 0)) by (apply vec_eq; vec_simpl; field) end.
  unfold centers_of. assert (DP : 0 < DELTA) by (unfold DELTA; lra).
  rewrite !normalize_r_axis; try lra; try (apply Rdiv_lt_0_compat; lra); try (vec_simpl; field). cbn [bind].
  replace (cross (V (24 / 25) (7 / 25) 0) (V (4 / 5) (- 3 / 5) 0)) with (smul (4 / 5) (smul (-1) OUT)) by (apply vec_eq; vec_simpl; field).
  rewrite normalize_r_axis; try lra; try (vec_simpl; ring). cbn [bind]. f_equal. f_equal; apply vec_eq; vec_simpl; field.
Qed.
Example C89_root_example : exists m arc post, 
  apply_fillet (places_solver (true, 0, touch) touch (1 / 2)) (Chain true radial) PI (ref_circle (V 2 0 0)) 3 true = Ok m /\
  leaves m = arc :: post /\ joined (leaves m) /\ c_eval arc 0 = V (14 / 25) (- 48 / 25) 0 /\ c_eval arc 1 = V (16 / 5) (- 12 / 5) 0 /\
  same_direction (c_eval (ref_circle (V 2 0 0))) touch (c_eval arc) 0.
Proof.
  pose proof radial_centers as CC. destruct (ref_circle_at 2 0 ltac:(lra)) as (EV & _). destruct touch_cs as (C & S).
  destruct (calc_centers_inv _ _ _ _ _ _ CC) as (p1 & p2 & d1 & d2 & P1 & P2 & D1 & D2).
  destruct (C88_tangent_arc _ _ _ _ _ _ _ _ _ _ P1 P2 D1 D2 (Rgt_not_eq 3 0 ltac:(lra)) CC) as (arc & th & TA & E0 & E1 & _).
  cbn [n_eval] in P1. apply Ok_inj in P1. rewrite EV, C, S in P1.
  unfold radial in P2. rewrite one_line_eval in P2 by exact radial_ne. apply Ok_inj in P2.
  assert (A0 : c_eval arc 0 = V (14 / 25) (- 48 / 25) 0) by (rewrite E0, <- P1; apply vec_eq; cbn [vx vy vz]; field).
  assert (A1 : c_eval arc 1 = V (16 / 5) (- 12 / 5) 0) by (rewrite E1, <- P2; apply vec_eq; vec_simpl; field).
  destruct (one_line_usable _ _ radial_ne) as (U & J). fold radial in U, J.
  destruct (C89_root (places_solver (true, 0, touch) touch (1 / 2)) radial PI (ref_circle (V 2 0 0)) 3 (mkAf arc touch (1 / 2) true) dummy_curve
    U J (ref_circle_plain 2 0 ltac:(lra)) (places_exact _ _ _) ltac:(lra)) as (m & post & c & AF & LV & JM & _ & _ & SD & _).
  - exists 0, touch. split; [reflexivity|]. cbn [af_arc].
    split; [apply fourth_quadrant; rewrite EV, C, S; cbn [vx vy]; lra|]. split.
    { cbn [try_arcs]. unfold fillet_attempt. cbv zeta. rewrite (places_arc _ _ _ _ _ _ _ _ _ _ CC TA). reflexivity. }
    rewrite A0, A1. split; apply fourth_quadrant; cbn [vx vy]; lra.
  - reflexivity.
  - exists m, arc, post. cbn [af_arc af_t1] in *. auto 10.
Qed.

(** The same at the tip: the flank runs outwards to a circle of radius 8, which it joins with an arc of radius 3. *)
Definition long_radial : list node := one_line (V (14 / 25) (- 48 / 25) 0) (V (56 / 25) (- 192 / 25) 0).
Definition tip_touch : R := arctan2 (- 3) 4 / (2 * PI).
Lemma long_radial_ne : V (14 / 25) (- 48 / 25) 0 <> V (56 / 25) (- 192 / 25) 0.
Proof. intros Q. apply (f_equal vx) in Q. cbn in Q. lra. Qed.
Lemma tip_touch_cs : cos (2 * PI * tip_touch) = 4 / 5 /\ sin (2 * PI * tip_touch) = - 3 / 5.
Proof.
  assert (P : 0 < PI) by apply PI_RGT_0. unfold tip_touch. replace (2 * PI * (arctan2 (-3) 4 / (2 * PI))) with (arctan2 (-3) 4) by (field; lra).
  destruct (arctan2_cos_sin (- 3) 4) as (C & S).
  assert (Q : sqrt (4 * 4 + -3 * -3) = 5) by (replace (4 * 4 + -3 * -3) with (5 * 5) by ring; apply sqrt_square; lra).
  rewrite Q in C, S. lra.
Qed.
Lemma long_radial_centers : calc_centers (Chain true long_radial) (Prim (ref_circle (V 8 0 0))) 3 (1 / 3) tip_touch = Ok (V 4 (- 3) 0, V 4 (- 3) 0).
Proof.
  destruct (ref_circle_at 8 0 ltac:(lra)) as (EV & _). destruct tip_touch_cs as (C & S).
  unfold calc_centers, long_radial. rewrite one_line_eval, one_line_derivative by exact long_radial_ne. cbn [n_eval bind].
  unfold n_derivative. cbn [n_eval bind]. rewrite !EV.
  assert (P : 0 < PI) by apply PI_RGT_0. set (y := 2 * PI * DELTA).
  replace (2 * PI * (tip_touch + DELTA)) with (2 * PI * tip_touch + y) by (unfold y; ring).
  replace (2 * PI * (tip_touch - DELTA)) with (2 * PI * tip_touch - y) by (unfold y; ring).
  rewrite cos_plus, cos_minus, sin_plus, sin_minus, C, S.
  assert (SY : 0 < sin y) by (apply sin_gt_0; unfold y, DELTA; lra).
  match goal with |- centers_of _ _ ?w ?v _ = _ =>
    replace v with (smul (8 * sin y / DELTA) (V (3 / 5) (4 / 5) 0))
      by (unfold DELTA; generalize (sin y) (cos y); clear; intros a b; apply vec_eq; vec_simpl; field);
    replace w with (smul 6 (V (7 / 25) (- 24 / 25) 0)) by (apply vec_eq; vec_simpl; field) end.
  unfold centers_of. assert (DP : 0 < DELTA) by (unfold DELTA; lra).
  rewrite !normalize_r_axis; try lra; try (apply Rdiv_lt_0_compat; lra); try (vec_simpl; field). cbn [bind].
  replace (cross (V (7 / 25) (- 24 / 25) 0) (V (3 / 5) (4 / 5) 0)) with (smul (4 / 5) OUT) by (apply vec_eq; vec_simpl; field).
  rewrite normalize_r_axis; try lra; try (vec_simpl; ring). cbn [bind]. f_equal. f_equal; apply vec_eq; vec_simpl; field.
Qed.
Example C89_tip_example : exists m arc pre,
  apply_fillet (places_solver (true, 1, tip_touch) (1 / 3) tip_touch) (Chain true long_radial) PI (ref_circle (V 8 0 0)) 3 false = Ok m /\
  leaves m = pre ++ [arc] /\ joined (leaves m) /\ c_eval arc 0 = V (28 / 25) (- 96 / 25) 0 /\ c_eval arc 1 = V (32 / 5) (- 24 / 5) 0 /\
  same_direction (c_eval (ref_circle (V 8 0 0))) tip_touch (c_eval arc) 1.
Proof.
  pose proof long_radial_centers as CC. destruct (ref_circle_at 8 0 ltac:(lra)) as (EV & _). destruct tip_touch_cs as (C & S).
  destruct (calc_centers_inv _ _ _ _ _ _ CC) as (p1 & p2 & d1 & d2 & P1 & P2 & D1 & D2).
  destruct (C88_tangent_arc _ _ _ _ _ _ _ _ _ _ P1 P2 D1 D2 (Rgt_not_eq 3 0 ltac:(lra)) CC) as (arc & th & TA & E0 & E1 & _).
  cbn [n_eval] in P2. apply Ok_inj in P2. rewrite EV, C, S in P2.
  unfold long_radial in P1. rewrite one_line_eval in P1 by exact long_radial_ne. apply Ok_inj in P1.
  assert (A0 : c_eval arc 0 = V (28 / 25) (- 96 / 25) 0) by (rewrite E0, <- P1; apply vec_eq; vec_simpl; field).
  assert (A1 : c_eval arc 1 = V (32 / 5) (- 24 / 5) 0) by (rewrite E1, <- P2; apply vec_eq; cbn [vx vy vz]; field).
  destruct (one_line_usable _ _ long_radial_ne) as (U & J). fold long_radial in U, J.
  destruct (C89_tip (places_solver (true, 1, tip_touch) (1 / 3) tip_touch) long_radial PI (ref_circle (V 8 0 0)) 3 (mkAf arc (1 / 3) tip_touch true)
    dummy_curve U J (ref_circle_plain 8 0 ltac:(lra)) (places_exact _ _ _) ltac:(lra)) as (m & pre & c & AF & LV & JM & _ & _ & SD & _).
  - exists 1, tip_touch. split; [reflexivity|]. cbn [af_arc].
    split; [apply fourth_quadrant; rewrite EV, C, S; cbn [vx vy]; lra|]. split.
    { cbn [try_arcs]. unfold fillet_attempt. cbv zeta. rewrite (places_arc _ _ _ _ _ _ _ _ _ _ CC TA). reflexivity. }
    rewrite A0, A1. split; apply fourth_quadrant; cbn [vx vy]; lra.
  - reflexivity.
  - exists m, arc, pre. cbn [af_arc af_t2] in *. auto 10.
Qed.

(** A flank that ends on the tooth's centre line: half an arc of radius sqrt 2. *)
Definition pointed : list node := one_line (V 8 (- 2) 0) (V 10 0 0).
Lemma pointed_ne : V 8 (- 2) 0 <> V 10 0 0.
Proof. intros Q. apply (f_equal vx) in Q. cbn in Q. lra. Qed.
(** The mirror image of a straight flank, run backwards. *)
Lemma line_mirror p q nrm s : p <> q -> nrm <> ORIGIN -> 0 <= s <= 1 ->
  c_eval (mirrored_flank (Chain true (one_line p q)) nrm) s = mirror_func (normalize nrm) ORIGIN (vadd (smul s p) (smul (1 - s) q)).
Proof.
  intros NE NN H. unfold mirrored_flank, n_mirrored, n_transformed.
  assert (NU : norm (normalize nrm) = 1) by (apply norm_eq; [lra|rewrite normalize_dot by exact NN; ring]).
  set (f := fun t => mirror_func (normalize nrm) ORIGIN (n_point (Chain true (one_line p q)) t)).
  assert (F : forall t, f t = mirror_func (normalize nrm) ORIGIN (vadd (smul (1 - t) p) (smul t q))).
  { intros t. unfold f, n_point. rewrite one_line_eval by exact NE. reflexivity. }
  change (n_active (Chain true (one_line p q))) with true. set (c := new_curve (SGen f) true 0 1 NDIV).
  assert (ST : forall i, (S i < NDIV)%nat -> norm (vsub (f (nth (S i) (linspace 0 1 NDIV) 0)) (f (nth i (linspace 0 1 NDIV) 0))) = norm (vsub q p) / 20).
  { intros i Hi. rewrite !F, C35_mirror_isometry, !linspace_nth by (try exact NU; lia).
    replace (INR (NDIV - 1)) with 20 by (unfold NDIV; simpl; lra). rewrite S_INR.
    replace (vsub _ _) with (smul (/ 20) (vsub q p)).
    - rewrite norm_smul, Rabs_right by lra. field.
    - generalize (INR i). clear. intros x. destruct p as [a b c], q as [a' b' c']. apply vec_eq; vec_simpl; field. }
  destruct (uniform_tables f c NDIV (norm (vsub q p) / 20) eq_refl NDIV_2 eq_refl (new_fresh _ _ _ _)) as (TS & SS); try discriminate; [exact ST|].
  assert (T : c_t0 c = 0 /\ c_t1 c = 1) by (split; reflexivity). destruct T as (T0 & T1). rewrite T0, T1 in TS.
  assert (RT : s2t (c_reverse c) s = 1 - s).
  { rewrite (uniform_s2t (c_reverse c) NDIV s NDIV_2).
    - change (c_t1 c + (c_t0 c - c_t1 c) * s = 1 - s). rewrite T0, T1. ring.
    - change (rev (c_ts c) = linspace (c_t1 c) (c_t0 c) NDIV). rewrite TS, T0, T1. apply linspace_rev, NDIV_2.
    - exact SS.
    - exact H. }
  unfold c_eval. rewrite RT. change (f (1 - s) = mirror_func (normalize nrm) ORIGIN (vadd (smul s p) (smul (1 - s) q))). rewrite F.
  replace (1 - (1 - s)) with s by ring. reflexivity.
Qed.
Lemma UP_nz : UP <> ORIGIN.
Proof. intros Q. apply (f_equal vy) in Q. cbn in Q. lra. Qed.
Lemma RIGHT_nz : RIGHT <> ORIGIN.
Proof. intros Q. apply (f_equal vx) in Q. cbn in Q. lra. Qed.
Lemma pointed_mirror s : 0 <= s <= 1 -> c_eval (mirrored_flank (Chain true pointed) UP) s = V (10 - 2 * s) (2 * s) 0.
Proof.
  intros H. unfold pointed. rewrite line_mirror, flip_mirror by (try exact H; try exact UP_nz; exact pointed_ne).
  apply vec_eq; unfold flip; vec_simpl; ring.
Qed.
Lemma pointed_centers : calc_centers (Chain true pointed) (Prim (mirrored_flank (Chain true pointed) UP)) (sqrt 2) (1 / 2) (1 / 2) =
  Ok (V 8 0 0, V 8 0 0).
Proof.
  assert (Q : sqrt 2 * sqrt 2 = 2) by (apply sqrt_sqrt; lra). assert (QP : 0 < sqrt 2) by (apply sqrt_lt_R0; lra).
  unfold calc_centers. unfold pointed at 1 3. rewrite one_line_eval, one_line_derivative by exact pointed_ne. cbn [n_eval bind].
  unfold n_derivative. cbn [n_eval bind]. rewrite !pointed_mirror by (unfold DELTA; lra).
  match goal with |- centers_of _ _ ?w ?v _ = _ =>
    replace v with (smul (2 * sqrt 2) (V (- / sqrt 2) (/ sqrt 2) 0)) by (unfold DELTA; apply vec_eq; vec_simpl; field; lra);
    replace w with (smul (2 * sqrt 2) (V (/ sqrt 2) (/ sqrt 2) 0)) by (apply vec_eq; vec_simpl; field; lra) end.
  assert (I2 : / sqrt 2 * / sqrt 2 = / 2) by (rewrite <- Rinv_mult, Q; reflexivity).
  unfold centers_of. rewrite !normalize_r_axis; try lra; try (vec_simpl; lra). cbn [bind].
  replace (cross (V (/ sqrt 2) (/ sqrt 2) 0) (V (- / sqrt 2) (/ sqrt 2) 0)) with (smul 1 OUT) by (apply vec_eq; vec_simpl; lra).
  rewrite normalize_r_axis; try lra; try (vec_simpl; ring). cbn [bind].
  f_equal; f_equal; apply vec_eq; vec_simpl; field; lra.
Qed.
Example C89_sharp_example : exists m arc pre,
  apply_fillet (places_solver (false, 0, 0) (1 / 2) (1 / 2)) (Chain true pointed) 1 (ref_circle (V 11 0 0)) (sqrt 2) false = Ok m /\
  leaves m = pre ++ [arc] /\ joined (leaves m) /\ c_eval arc 0 = V 9 (- 1) 0 /\ vy (c_eval arc 1) = 0 /\
  (exists k, k <> 0 /\ velocity (c_eval arc) 1 (smul k UP)).
Proof.
  pose proof pointed_centers as CC. assert (QP : 0 < sqrt 2) by (apply sqrt_lt_R0; lra).
  destruct (calc_centers_inv _ _ _ _ _ _ CC) as (p1 & p2 & d1 & d2 & P1 & P2 & D1 & D2).
  destruct (C88_tangent_arc _ _ _ _ _ _ _ _ _ _ P1 P2 D1 D2 (Rgt_not_eq _ 0 QP) CC) as (arc & th & TA & E0 & E1 & _ & _ & _ & _ & _ & _ & F & _).
  cbn [n_eval] in P2. apply Ok_inj in P2. rewrite pointed_mirror in P2 by lra.
  unfold pointed in P1. rewrite one_line_eval in P1 by exact pointed_ne. apply Ok_inj in P1.
  assert (A0 : c_eval arc 0 = V 9 (- 1) 0) by (rewrite E0, <- P1; apply vec_eq; vec_simpl; field).
  assert (A1 : c_eval arc 1 = V 9 1 0) by (rewrite E1, <- P2; apply vec_eq; cbn [vx vy vz]; field).
  destruct (one_line_usable _ _ pointed_ne) as (U & J). fold pointed in U, J.
  set (fs := places_solver (false, 0, 0) (1 / 2) (1 / 2)).
  destruct (C89_sharp_tip fs pointed 1 (sqrt 2) (mkAf arc (1 / 2) (1 / 2) true) dummy_curve U J (places_exact _ _ _) QP)
    as (m & pre & SF & LV & JM & _ & OP & VL & P & _).
  - apply places_arc with (V 8 0 0); assumption.
  - reflexivity.
  - cbn [af_arc]. rewrite A0, A1. split; [unfold on_plane; vec_simpl; ring|]. exists 2. split; [lra|]. apply vec_eq; vec_simpl; ring.
  - cbn [af_arc af_t1] in *. exists m, (set_end_on arc (1 / 2)), pre. split; [exact SF|]. split; [exact LV|]. split; [exact JM|].
    rewrite LV, last_last in OP, VL. 
    destruct (exact_arc _ _ _ _ _ _ _ TA (Rgt_not_eq _ 0 QP) CC) as (_ & _ & _ & _ & _ & ND).
    destruct (C29_set_end_on arc (1 / 2) F ND) as (_ & H0). rewrite H0.
    split; [exact A0|]. split; [|exact VL]. unfold on_plane in OP. revert OP. vec_simpl. lra.
Qed.

(** The same at the root, with the plane x = 0 (two teeth). *)
Definition pointed_root : list node := one_line (V 0 (- 10) 0) (V 2 (- 8) 0).
Lemma pointed_root_ne : V 0 (- 10) 0 <> V 2 (- 8) 0.
Proof. intros Q. apply (f_equal vx) in Q. cbn in Q. lra. Qed.
Lemma half_turn_plane : rotate_vector UP (- PI / 2) = RIGHT.
Proof.
  unfold rotate_vector. replace (- PI / 2) with (- (PI / 2)) by field. apply vec_eq; vec_simpl; rewrite ?cos_neg, ?sin_neg, ?cos_PI2, ?sin_PI2; ring.
Qed.
Lemma pointed_root_mirror s : 0 <= s <= 1 -> c_eval (mirrored_flank (Chain true pointed_root) RIGHT) s = V (- 2 + 2 * s) (- 8 - 2 * s) 0.
Proof.
  intros H. unfold pointed_root. rewrite line_mirror by (try exact H; try exact RIGHT_nz; exact pointed_root_ne).
  assert (N : normalize RIGHT = RIGHT).
  { unfold normalize. replace (norm RIGHT) with 1 by (symmetry; apply norm_eq; [lra|vec_simpl; ring]). rewrite Rinv_1. apply smul_1. }
  rewrite N. unfold mirror_func. apply vec_eq; vec_simpl; ring.
Qed.
Lemma pointed_root_centers :
  calc_centers (Prim (mirrored_flank (Chain true pointed_root) RIGHT)) (Chain true pointed_root) (sqrt 2) (1 / 2) (1 / 2) = Ok (V 0 (- 8) 0, V 0 (- 8) 0).
Proof.
  assert (Q : sqrt 2 * sqrt 2 = 2) by (apply sqrt_sqrt; lra). assert (QP : 0 < sqrt 2) by (apply sqrt_lt_R0; lra).
  pose proof (one_line_eval _ _ (1 / 2) pointed_root_ne) as EE. pose proof (one_line_derivative _ _ (1 / 2) pointed_root_ne) as ED.
  fold pointed_root in EE, ED. unfold calc_centers. rewrite EE, ED. cbn [n_eval bind].
  unfold n_derivative. cbn [n_eval bind]. rewrite !pointed_root_mirror by (unfold DELTA; lra).
  match goal with |- centers_of _ _ ?w ?v _ = _ =>
    replace v with (smul (2 * sqrt 2) (V (/ sqrt 2) (/ sqrt 2) 0)) by (unfold DELTA; apply vec_eq; vec_simpl; field; lra);
    replace w with (smul (2 * sqrt 2) (V (/ sqrt 2) (- / sqrt 2) 0)) by (unfold DELTA; apply vec_eq; vec_simpl; field; lra) end.
  assert (I2 : / sqrt 2 * / sqrt 2 = / 2) by (rewrite <- Rinv_mult, Q; reflexivity).
  unfold centers_of. rewrite !normalize_r_axis; try lra; try (vec_simpl; lra). cbn [bind].
  replace (cross (V (/ sqrt 2) (- / sqrt 2) 0) (V (/ sqrt 2) (/ sqrt 2) 0)) with (smul 1 OUT) by (apply vec_eq; vec_simpl; lra).
  rewrite normalize_r_axis; try lra; try (vec_simpl; ring). cbn [bind].
  f_equal; f_equal; apply vec_eq; vec_simpl; field; lra.
Qed.
Example C89_sharp_root_example : exists m arc post,
  apply_fillet (places_solver (false, 0, 0) (1 / 2) (1 / 2)) (Chain true pointed_root) PI (ref_circle (V 9 0 0)) (sqrt 2) true = Ok m /\
  leaves m = arc :: post /\ joined (leaves m) /\ vx (c_eval arc 0) = 0 /\ c_eval arc 1 = V 1 (- 9) 0 /\
  (exists k, k <> 0 /\ velocity (c_eval arc) 0 (smul k RIGHT)).
Proof.
  pose proof pointed_root_centers as CC. assert (QP : 0 < sqrt 2) by (apply sqrt_lt_R0; lra).
  destruct (calc_centers_inv _ _ _ _ _ _ CC) as (p1 & p2 & d1 & d2 & P1 & P2 & D1 & D2).
  destruct (C88_tangent_arc _ _ _ _ _ _ _ _ _ _ P1 P2 D1 D2 (Rgt_not_eq _ 0 QP) CC) as (arc & th & TA & E0 & E1 & _ & _ & _ & _ & _ & _ & F & _).
  cbn [n_eval] in P1. apply Ok_inj in P1. rewrite pointed_root_mirror in P1 by lra.
  unfold pointed_root in P2. rewrite one_line_eval in P2 by exact pointed_root_ne. apply Ok_inj in P2.
  assert (A0 : c_eval arc 0 = V (- 1) (- 9) 0) by (rewrite E0, <- P1; apply vec_eq; cbn [vx vy vz]; field).
  assert (A1 : c_eval arc 1 = V 1 (- 9) 0) by (rewrite E1, <- P2; apply vec_eq; vec_simpl; field).
  destruct (one_line_usable _ _ pointed_root_ne) as (U & J). fold pointed_root in U, J.
  set (fs := places_solver (false, 0, 0) (1 / 2) (1 / 2)).
  destruct (C89_sharp_root fs pointed_root PI (sqrt 2) (mkAf arc (1 / 2) (1 / 2) true) dummy_curve U J (places_exact _ _ _) QP)
    as (m & post & SF & LV & JM & _ & OP & VL & P & _).
  - rewrite half_turn_plane. apply places_arc with (V 0 (- 8) 0); assumption.
  - reflexivity.
  - cbn [af_arc]. rewrite A0, A1, half_turn_plane. split; [unfold on_plane; vec_simpl; ring|]. exists 2. split; [lra|]. apply vec_eq; vec_simpl; ring.
  - cbn [af_arc af_t1] in *. exists m, (set_start_on arc (1 / 2)), post. split; [exact SF|]. split; [exact LV|]. split; [exact JM|].
    rewrite LV in OP, VL. cbn [hd] in OP, VL. rewrite half_turn_plane in OP, VL.
    destruct (exact_arc _ _ _ _ _ _ _ TA (Rgt_not_eq _ 0 QP) CC) as (_ & _ & _ & _ & _ & ND).
    destruct (C29_set_start_on arc (1 / 2) F ND) as (_ & H1). rewrite H1.
    split; [unfold on_plane in OP; revert OP; vec_simpl; lra|]. split; [exact A1|exact VL].
Qed.

(** The success flag of the last attempt is not looked at: a solver that fails and says so still makes a fillet, here
    one that does not reach the flank. *)
Definition giving_up (meet : bool * R * R) (t1 t2 : R) : fsolver :=
  mkFs (fun _ _ _ s1 s2 _ => (false, s1 - t1, t2 - s2)) (fun _ _ _ _ => meet) (fun _ _ _ => (false, 0)).
Theorem C89_failed_search_refuted : exists fs l pitch circle radius m, usable (Chain true l) /\ joined (leaves (Chain true l)) /\
  plain circle /\ 0 < radius /\ (forall n1 n2 r s1 s2 g, fst (fst (fs_tan fs n1 n2 r s1 s2 g)) = false) /\
  apply_fillet fs (Chain true l) pitch circle radius true = Ok m /\ ~ joined (leaves m).
Proof.
  destruct (ref_circle_at 2 0 ltac:(lra)) as (EV & _). destruct touch_cs as (C & S).
  assert (P1 : n_eval (Prim (ref_circle (V 2 0 0))) touch = Ok (V (14 / 25) (- 48 / 25) 0)).
  { cbn [n_eval]. rewrite EV, C, S. f_equal. apply vec_eq; cbn [vx vy vz]; field. }
  assert (P2 : n_eval (Chain true radial) (3 / 4) = Ok (V 4 (- 3) 0)).
  { unfold radial. rewrite one_line_eval by exact radial_ne. f_equal. apply vec_eq; vec_simpl; field. }
  assert (CC : calc_centers (Prim (ref_circle (V 2 0 0))) (Chain true radial) 3 touch (3 / 4) = Ok (V (7 / 5) (- 24 / 5) 0, V (11 / 5) (- 27 / 5) 0)).
  { pose proof radial_centers as CC. unfold calc_centers in CC |- *. rewrite P1 in CC |- *. rewrite P2.
    unfold radial in CC |- *. rewrite one_line_eval in CC by exact radial_ne. rewrite one_line_derivative in CC |- * by exact radial_ne.
    cbn [bind] in CC |- *. destruct (n_derivative (Prim (ref_circle (V 2 0 0))) touch) as [d1|]; cbn [bind] in CC |- *; [|discriminate].
    revert CC. unfold centers_of. destruct (normalize_r d1) as [t1|]; cbn [bind]; [|discriminate].
    destruct (normalize_r (vsub _ _)) as [t2|]; cbn [bind]; [|discriminate]. destruct (normalize_r (cross t1 t2)) as [ax|]; cbn [bind]; [|discriminate].
    intros Q. apply Ok_inj in Q. injection Q as X1 X2 X3 Y1 Y2 Y3. f_equal. f_equal; apply vec_eq; revert X1 X2 X3 Y1 Y2 Y3; vec_simpl; intros; lra. }
  assert (CE : smul (/ 2) (vadd (V (7 / 5) (- 24 / 5) 0) (V (11 / 5) (- 27 / 5) 0)) = V (9 / 5) (- 51 / 10) 0)
    by (apply vec_eq; vec_simpl; field).
  destruct (C88_gap _ _ _ _ _ _ _ _ _ P1 P2 CC) as (arc & T & A0 & A1).
  { rewrite CE. intros Q. apply (f_equal vz) in Q. revert Q. vec_simpl. lra. }
  rewrite CE in A1.
  set (na := norm (vsub (V (14 / 25) (- 48 / 25) 0) (V (9 / 5) (- 51 / 10) 0))) in A1.
  set (nb := norm (vsub (V 4 (- 3) 0) (V (9 / 5) (- 51 / 10) 0))) in A1.
  assert (NA : na * na = 29125 / 2500) by (unfold na; rewrite norm_sqr; vec_simpl; field).
  assert (NB : nb * nb = 23125 / 2500) by (unfold nb; rewrite norm_sqr; vec_simpl; field).
  assert (NA0 : 0 <= na) by apply norm_nonneg. assert (NB0 : 0 <= nb) by apply norm_nonneg.
  assert (NA1 : 3 < na < 7 / 2) by (split; nra). assert (NB1 : 3 < nb < 7 / 2) by (split; nra).
  assert (NL : nb < na) by nra.
  rewrite Rabs_right in A1 by lra. pose proof (norm_sqr (vsub (c_eval arc 1) (V 4 (-3) 0))) as NS. rewrite A1 in NS.
  assert (B1 : in_half_pitch PI (c_eval arc 1)).
  { assert (HX : (vx (c_eval arc 1) - 4) * (vx (c_eval arc 1) - 4) <= 1 /\ (vy (c_eval arc 1) + 3) * (vy (c_eval arc 1) + 3) <= 1).
    { assert (G : (na - nb) * (na - nb) <= 1) by nra. revert NS. generalize (c_eval arc 1). intros [x y z]. vec_simpl. intros NS.
      pose proof (Rle_0_sqr (x - 4)) as QX. pose proof (Rle_0_sqr (y + 3)) as QY. pose proof (Rle_0_sqr z) as QZ. unfold Rsqr in QX, QY, QZ.
      ring_simplify in NS. ring_simplify in G. ring_simplify in QX. ring_simplify in QY. ring_simplify in QZ.
      split; ring_simplify; lra. }
    destruct HX as (HX & HY). apply fourth_quadrant; nra. }
  destruct (one_line_usable _ _ radial_ne) as (U & J). fold radial in U, J.
  destruct (start_cut (Chain true radial) (3 / 4) dummy_curve U J) as (m & c & u & S' & JM & N & P & L & FM & _).
  destruct (set_start_chain _ _ _ _ _ S') as (l' & ->).
  set (fs := giving_up (true, 0, touch) touch (3 / 4)).
  assert (FA : forall k, fillet_attempt fs (Chain true radial) (ref_circle (V 2 0 0)) 3 0 touch true k = Ok (mkAf arc touch (3 / 4) false)).
  { intros k. unfold fillet_attempt, calc_tangent_arc. cbv zeta. cbn [fs giving_up fs_tan].
    match goal with |- context [?a - (?a - touch)] => replace (a - (a - touch)) with touch by ring end.
    match goal with |- context [?a + (3 / 4 - ?a)] => replace (a + (3 / 4 - a)) with (3 / 4) by ring end. rewrite T. reflexivity. }
  assert (AA : c_act arc = true /\ fresh arc).
  { unfold tangent_arc in T. rewrite CC, P1, P2 in T. cbn [bind] in T. apply Ok_inj in T. subst arc. unfold from_2_point_center, arc_from_frame.
    destruct (as_euler_zyx _) as [[yaw pitch] roll]. split; [reflexivity|apply new_fresh]. }
  destruct AA as (AA & FR).
  assert (FI : List.Forall fresh (leaves_of (Prim arc :: l'))).
  { change (leaves_of (Prim arc :: l')) with (leaves (Prim arc) ++ leaves (Chain true l')). apply Forall_app.
    split; [cbn [leaves]; rewrite AA; repeat constructor; exact FR|apply usable_fresh, FM]. }
  assert (LV : leaves (Chain true (Prim arc :: l')) = arc :: leaves (Chain true l')).
  { change (leaves (Chain true (Prim arc :: l'))) with (leaves (Prim arc) ++ leaves (Chain true l')).
    cbn [leaves]. rewrite AA. reflexivity. }
  exists fs, radial, PI, (ref_circle (V 2 0 0)), 3, (Chain true (Prim arc :: l')).
  split; [exact U|]. split; [exact J|]. split; [apply ref_circle_plain; lra|]. split; [lra|]. split; [reflexivity|]. split.
  - unfold apply_fillet. change (fs_meet fs _ _ _ _) with (true, 0, touch). cbn [andb].
    assert (B0 : in_half_pitch PI (V (14 / 25) (-48 / 25) 0)) by (apply fourth_quadrant; cbn [vx vy]; lra).
    apply angle_check_iff in B0, B1. cbn [n_eval] in P1. apply Ok_inj in P1. rewrite P1, B0. cbn [try_arcs]. rewrite !FA. cbn [bind af_ok af_arc af_t2].
    rewrite A0, B0, B1. cbn [andb]. unfold with_start_arc. rewrite S'. cbn [bind]. f_equal. f_equal. unfold ch_insert.
    replace (insert_index (length l') 0) with 0%nat.
    + apply refresh_list, FI.
    + unfold insert_index. cbn. destruct (Z.of_nat (length l') <? 0)%Z eqn:Q; [apply Z.ltb_lt in Q; lia|reflexivity].
  - rewrite LV. intros K. destruct (leaves (Chain true l')) as [|x q]; [contradiction|]. destruct K as (K & _). cbn [hd] in P.
    rewrite P2 in P. apply Ok_inj in P. rewrite K, <- P, vsub_diag, norm_ORIGIN in A1. lra.
Qed.
