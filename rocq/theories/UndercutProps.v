(** Property C93, second part, and C94: the undercut tooth. *)
From Coq Require Import Nsatz Reals Lra Psatz List Bool.
From Coquelicot Require Import Coquelicot.
From Verif Require Import Num Vec Transform Params Coords CoordsProps Gen GenProps GenDiffProps Interp Curve CurveLem CurveProps
  ArcLem ArcProps Chain ChainLem ChainProps GearLem MeshDistProps Profile ProfileLem ProfileProps Tooth Fillet FilletProps FlankProps
  Teeth RackConjProps.
Import ListNotations.
Open Scope R_scope.

Ltac dch := destruct (Req_EM_T 0 0) as [_|N0]; [|contradiction].

Lemma gen_length f t0 t1 n : 0 <= c_length (new_curve (SGen f) true t0 t1 (S n)).
Proof.
  change (0 <= last (polylen 0 (map f (linspace t0 t1 (S n)))) 0). apply polylen_last_nonneg.
  intros E. apply map_eq_nil in E. apply (f_equal (@length R)) in E. rewrite linspace_length in E. discriminate.
Qed.
Lemma set_end_gen f c s : c_shape c = SGen f -> set_end_on c s = update_lengths (with_domain c (c_t0 c) (s2t c s)) /\
  (c_ndiv c = NDIV -> 0 <= c_length (set_end_on c s)).
Proof.
  intros E. split; [reflexivity|]. intros N. unfold set_end_on, update_lengths, with_domain. cbn [c_shape c_ndiv c_t0 c_t1].
  rewrite E, N. cbn [c_length]. apply polylen_last_nonneg. intros Q. apply map_eq_nil in Q.
  apply (f_equal (@length R)) in Q. rewrite linspace_length in Q. discriminate.
Qed.

(** ** C94: joining the undercut and the tooth *)
(** [trim_undercut] never fails on a usable chain.  The result is the undercut curve up to the place found, followed by
    the tooth from the place found; it keeps the outer ends, and it is connected exactly when the two places are the same
    point. *)
Theorem C94_trim ts l under d : usable (Chain true l) -> joined (leaves (Chain true l)) -> fresh under -> (2 <= c_ndiv under)%nat ->
  c_act under = true ->
  let x := trim_solution ts (Chain true l) (nth 1 (portions (length_array l)) 0) under 1 in
  exists m q post, trim_undercut ts (Chain true l) under = Ok m /\ leaves m = set_end_on under (snd x) :: post /\ post <> [] /\
    n_eval (Chain true l) (fst x) = Ok q /\ c_eval (hd d post) 0 = q /\ joined post /\
    c_eval (hd d (leaves m)) 0 = c_eval under 0 /\ c_eval (hd d (leaves m)) 1 = c_eval under (snd x) /\
    c_eval (last (leaves m) d) 1 = c_eval (last (leaves (Chain true l)) d) 1 /\
    (joined (leaves m) <-> q = c_eval under (snd x)).
Proof.
  intros U J F N A x. destruct (start_cut (Chain true l) (fst x) d U J) as (m & c & u & S & JM & NE & P & L & FM & _).
  destruct (set_start_chain _ _ _ _ _ S) as (l' & ->).
  destruct (C29_set_end_on under (snd x) F N) as (E1 & E0).
  set (un := set_end_on under (snd x)) in *.
  assert (AU : c_act un = true) by (unfold un, set_end_on; rewrite update_act; exact A).
  assert (LV : leaves (Chain true [Prim un; Chain true l']) = un :: leaves (Chain true l')).
  { change (leaves (Chain true [Prim un; Chain true l'])) with (leaves (Prim un) ++ leaves (Chain true l') ++ []).
    rewrite app_nil_r. cbn [leaves]. rewrite AU. reflexivity. }
  assert (FF : List.Forall fresh (leaves (Chain true [Prim un; Chain true l']))).
  { rewrite LV. constructor; [apply set_end_fresh|apply usable_fresh, FM]. }
  assert (AC : n_active (Chain true [Prim un; Chain true l']) = true) by (cbn; rewrite AU; reflexivity).
  exists (Chain true [Prim un; Chain true l']), (c_eval (hd d (leaves (Chain true l'))) 0), (leaves (Chain true l')).
  split.
  { unfold trim_undercut. fold x. rewrite S. cbn [bind]. unfold new_chain. fold un. rewrite update_id by assumption. reflexivity. }
  split; [exact LV|]. split; [exact NE|]. split; [exact P|]. split; [reflexivity|]. split; [exact JM|].
  rewrite LV. cbn [hd]. split; [exact E0|]. split; [exact E1|]. split.
  - change (un :: leaves (Chain true l')) with ((un :: nil) ++ leaves (Chain true l')). rewrite last_app by exact NE. exact L.
  - destruct (leaves (Chain true l')) as [|y r]; [contradiction|]. cbn [hd joined]. rewrite <- E1.
    split; [intros (Q & _); symmetry; exact Q|intros Q; split; [symmetry; exact Q|exact JM]].
Qed.

(** A flank that is a single curve cannot be trimmed. *)
Theorem C94_single_curve ts c under : trim_undercut ts (Prim c) under = Err AttributeError.
Proof. reflexivity. Qed.

(** Which search the places come from. *)
Theorem C94_search ts n ps under g : let a := ts_meet ts EQUALITY n under g g in let b := ts_meet ts MINDISTANCE n under g g in
  let s := if fst (fst a) then a else b in
  trim_solution ts n ps under g =
  let s := if Rlt_dec (snd (fst s)) ps then ts_meet ts EQUALITY n under (snd (fst s) + 2 / 10) (snd s + 2 / 10) else s in
  (snd (fst s), snd s).
Proof.
  cbn zeta. unfold trim_solution. destruct (ts_meet ts EQUALITY n under g g) as [[o1 a0] a1]. cbn [fst snd].
  destruct o1; [|destruct (ts_meet ts MINDISTANCE n under g g) as [[o2 b0] b1]]; cbn [fst snd];
    (destruct (Rlt_dec _ ps); [|reflexivity]); destruct (ts_meet ts EQUALITY n under (_ + _) _) as [[o3 y0] y1]; reflexivity.
Qed.

(** ** The planar involute flank can be trimmed, whatever the solver says *)
Lemma involute_tooth_usable rp alpha pia s2 s1 : 0 < rp -> 0 < cos alpha ->
  exists l, involute_tooth rp alpha pia s2 s1 = Chain true l /\ usable (Chain true l) /\ joined (leaves (Chain true l)) /\
    leaves (Chain true l) = [line_curve (smul (/ 2) (c_eval (involute_flank rp alpha pia s2 s1) 0)) (c_eval (involute_flank rp alpha pia s2 s1) 0) true;
       involute_flank rp alpha pia s2 s1].
Proof.
  intros R0 C. set (f := involute_flank rp alpha pia s2 s1).
  set (ln := line_curve (smul (/ 2) (c_eval f 0)) (c_eval f 0) true).
  assert (FF : fresh f) by apply set_end_fresh. assert (FL : fresh ln) by apply new_fresh.
  assert (NF : (2 <= c_ndiv f)%nat) by apply NDIV_2.
  assert (E0 : c_eval f 0 = circle_pt (rp * cos alpha) (base_angle rp alpha pia s2)).
  { rewrite fresh_start by assumption.
    change (involute_circle 0 (rp * cos alpha) (base_angle rp alpha pia s2) ORIGIN 0 = circle_pt (rp * cos alpha) (base_angle rp alpha pia s2)).
    apply C23_start. }
  assert (P : 0 < rp * cos alpha) by (apply Rmult_lt_0_compat; assumption).
  assert (LL : c_length ln = rp * cos alpha / 2).
  { unfold ln. rewrite line_curve_length.
    replace (vsub (c_eval f 0) (smul (/ 2) (c_eval f 0))) with (smul (/ 2) (c_eval f 0)).
    - rewrite norm_smul, Rabs_right by lra. rewrite E0, circle_pt_norm by lra. lra.
    - generalize (c_eval f 0). intros q. apply vec_eq; vec_simpl; lra. }
  assert (LF : 0 <= c_length f) by (apply (set_end_gen (fun t => involute_circle t (rp * cos alpha) (base_angle rp alpha pia s2) ORIGIN 0)); reflexivity).
  assert (LV : leaves (Chain true [Prim ln; Prim f]) = [ln; f]) by reflexivity.
  exists [Prim ln; Prim f]. split; [|split; [|split; [|exact LV]]].
  - unfold involute_tooth. fold f. fold ln. unfold new_chain. apply update_id; [reflexivity|]. rewrite LV. constructor; [exact FL|constructor; [exact FF|constructor]].
  - split; [reflexivity|]. split.
    + apply wf_chain. split.
      * change (0 < c_length ln + (c_length f + 0)). lra.
      * constructor; [|constructor; [|constructor]]; intros _; [change (0 <= c_length ln)|change (0 <= c_length f)]; lra.
    + rewrite LV. constructor; [split; [exact FL|apply NDIV_2]|constructor; [split; [exact FF|exact NF]|constructor]].
  - rewrite LV. cbn [joined]. split; [|exact I]. unfold ln. rewrite line_eval.
    generalize (c_eval f 0). intros q. apply vec_eq; vec_simpl; ring.
Qed.

Lemma undercut_facts ts rp P : let u := undercut_curve ts rp 0 P in
  fresh u /\ (2 <= c_ndiv u)%nat /\ c_act u = true /\ c_eval u 0 = P /\ c_fun u = c_fun (plane_undercut rp P).
Proof.
  cbn zeta. unfold undercut_curve. dch.
  assert (F : fresh (plane_undercut rp P)) by apply new_fresh. assert (N : (2 <= c_ndiv (plane_undercut rp P))%nat) by apply NDIV_2.
  destruct (Rlt_dec 0 _) as [L|L].
  - split; [apply set_end_fresh|]. split; [apply NDIV_2|]. split; [reflexivity|]. split; [|reflexivity].
    match goal with |- c_eval (set_end_on _ ?x) 0 = _ => destruct (C29_set_end_on (plane_undercut rp P) x F N) as (_ & E0) end.
    rewrite E0. apply C93_start.
  - split; [exact F|]. split; [exact N|]. split; [reflexivity|]. split; [apply C93_start|reflexivity].
Qed.

(** The generated tooth: never an exception; first the path of the rack's corner, starting at the corner, then the
    involute flank up to its end. *)
Theorem C94_undercut_tooth ts rp alpha pia pitch_angle lm d : usual rp alpha lm ->
  ~ involute_base ts rp alpha 0 < rp - lm_hd lm ->
  let P := plane_ref_point ts (plane_rack rp pia alpha lm) rp pitch_angle in
  exists m u post, involute_undercut_tooth ts rp alpha pia 0 pitch_angle (Some lm) = Ok m /\ leaves m = u :: post /\ post <> [] /\
    joined post /\ c_eval u 0 = P /\
    (forall s, exists t, turned (- t) (c_eval u s) = moved rp (- t) P) /\
    c_eval (last (leaves m) d) 1 = c_eval (plane_involute_flank ts rp alpha pia) 1 /\
    (joined (leaves m) <-> c_eval u 1 = c_eval (hd d post) 0) /\
    exists x, u = set_end_on (undercut_curve ts rp 0 P) x.
Proof.
  intros U L P. destruct U as [R0 A0 I0 H0]. assert (C : 0 < cos alpha) by (apply cos_gt_0; lra).
  unfold involute_undercut_tooth, involute_tooth_curve, involute_rack. destruct (Rlt_dec _ _) as [B|_]; [contradiction|]. dch. fold P.
  unfold plane_involute_tooth, plane_involute_flank.
  destruct (ts_meet ts EQUALITY (Prim (involute_curve0 rp alpha)) _ _ _) as [[ok s2] y].
  set (s1 := snd (ts_plane ts EQUALITY (Prim (involute_curve1 rp alpha pia s2)) UP ORIGIN 1)).
  destruct (involute_tooth_usable rp alpha pia s2 s1 R0 C) as (l & -> & US & J & LV).
  destruct (undercut_facts ts rp P) as (F & N & A & E & FU). set (un := undercut_curve ts rp 0 P) in *.
  destruct (C94_trim ts l un d US J F N A) as (m & q & post & T & LM & PN & NQ & HQ & JP & H0' & H1' & LL & JI).
  rewrite LM in H0', H1', LL, JI. cbn [hd] in H0', H1'.
  exists m, (set_end_on un (snd (trim_solution ts (Chain true l) (nth 1 (portions (length_array l)) 0) un 1))), post.
  split; [exact T|]. split; [exact LM|]. split; [exact PN|]. split; [exact JP|]. split; [congruence|]. split; [|split; [|split; [|eexists; reflexivity]]].
  - intros s. set (v := set_end_on un _). exists (s2t v s).
    change (c_eval v s) with (c_fun v (s2t v s)).
    replace (c_fun v) with (c_fun (plane_undercut rp P)); [apply C93_path|].
    rewrite <- FU. unfold v, c_fun, set_end_on. rewrite update_shape. reflexivity.
  - rewrite LM, LL, LV. reflexivity.
  - rewrite LM, JI, H1', HQ. split; intros; symmetry; assumption.
Qed.

(** Without limits both generators fail. *)
Theorem C94_default_limits_refuted ts rp alpha pia cone pitch_angle :
  involute_undercut_tooth ts rp alpha pia cone pitch_angle None = Err AttributeError /\
  octoid_undercut_tooth ts rp alpha pia cone pitch_angle None = Err AttributeError.
Proof. split; reflexivity. Qed.

(** C93: teeth are also treated that need no undercut: here the rack works on the involute alone and the lower part of
    the flank is replaced all the same. *)
Theorem C93_unneeded_refuted : exists rp alpha lm, forall ts pia pitch_angle, solved ts rp alpha ->
  usual rp alpha lm /\ (forall u, 0 <= u <= 1 -> exists t, 0 <= t /\ touching ts rp alpha pia lm t u) /\
  involute_undercut_tooth ts rp alpha pia 0 pitch_angle (Some lm) <> Ok (plane_involute_tooth ts rp alpha pia).
Proof.
  exists 1, (PI / 4), (mkLim 1 (4 / 10)). intros ts pia pitch_angle S. pose proof PI_RGT_0.
  assert (SQ : cos (PI / 4) * cos (PI / 4) = / 2 /\ sin (PI / 4) * sin (PI / 4) = / 2).
  { rewrite cos_PI4, sin_PI4. pose proof (sqrt_sqrt 2 ltac:(lra)) as Q. assert (sqrt 2 <> 0) by (intros E; rewrite E in Q; lra).
    assert (E : 1 / sqrt 2 * (1 / sqrt 2) = / (sqrt 2 * sqrt 2)) by (field; assumption). rewrite E, Q. split; reflexivity. }
  destruct SQ as (SC & SS). assert (C : 0 < cos (PI / 4)) by (apply cos_gt_0; lra).
  assert (U : usual 1 (PI / 4) (mkLim 1 (4 / 10))).
  { constructor; cbn [lm_ha lm_hd]; try lra. unfold inv. rewrite tan_PI4. pose proof PI2_3_2. lra. }
  split; [exact U|]. split.
  - apply (C93_undercut_iff ts 1 (PI / 4) pia _ U S). cbn [lm_hd]. lra.
  - assert (NB : ~ involute_base ts 1 (PI / 4) 0 < 1 - lm_hd (mkLim 1 (4 / 10))).
    { unfold involute_base. dch. cbn [lm_hd]. intros L. assert (cos (PI / 4) * cos (PI / 4) < 6 / 10 * (6 / 10)).
      { apply Rmult_le_0_lt_compat; lra. } lra. }
    destruct (C94_undercut_tooth ts 1 (PI / 4) pia pitch_angle (mkLim 1 (4 / 10)) dummy_curve U NB) as (m & u & post & T & LM & _ & _ & _ & _ & _ & _ & x & UX).
    rewrite T. intros E. apply Ok_inj in E. subst m.
    unfold plane_involute_tooth in LM. destruct (ts_meet ts EQUALITY (Prim (involute_curve0 1 (PI / 4))) _ _ _) as [[ok s2] y].
    destruct (involute_tooth_usable 1 (PI / 4) pia s2 (snd (ts_plane ts EQUALITY (Prim (involute_curve1 1 (PI / 4) pia s2)) UP ORIGIN 1)) Rlt_0_1 C) as (l & EL & _ & _ & LV).
    rewrite EL, LV in LM. injection LM as LU _.
    apply (f_equal c_shape) in LU. rewrite UX in LU. unfold set_end_on in LU. rewrite update_shape in LU.
    unfold undercut_curve in LU. destruct (Req_EM_T 0 0) as [_|N0] in LU; [|contradiction].
    destruct (Rlt_dec 0 _) in LU; discriminate.
Qed.

(** ** Examples *)
Definition ex_ts (s2 : R) : tsolver :=
  mkTs (fun _ _ _ _ _ => (true, s2, s2)) (fun _ _ _ _ _ => (true, / 2)) (fun _ _ => 0) (fun _ _ => (0, 0)) (fun _ _ _ => (0, 0)).

Lemma ex_usual : usual 10 (PI / 6) (mkLim 1 (5 / 4)).
Proof.
  pose proof PI2_3_2. constructor; cbn [lm_ha lm_hd]; try lra. unfold inv. rewrite tan_PI6.
  assert (1 / sqrt 3 <= 1); [|lra]. apply Rle_div_l; [apply sqrt_lt_R0; lra|]. rewrite Rmult_1_l, <- sqrt_1. apply sqrt_le_1_alt. lra.
Qed.
(** A rack tooth of 30 degrees on a gear of pitch radius 10: the tooth is left alone, touches the rack in each pose up to
    [pia + tan alpha], and stays on its side. *)
Example C92_example : exists ts, solved ts 10 (PI / 6) /\
  (forall tau, tau <= PI / 40 + tan (PI / 6) -> exists t u, 0 <= t /\
     turned tau (c_fun (plane_involute_flank ts 10 (PI / 6) (PI / 40)) t) =
     moved 10 tau (c_eval (plane_rack 10 (PI / 40) (PI / 6) (mkLim 1 (5 / 4))) u)) /\
  dot (vsub (turned (PI / 40) (c_fun (plane_involute_flank ts 10 (PI / 6) (PI / 40)) 0))
            (moved 10 (PI / 40) (c_eval (plane_rack 10 (PI / 40) (PI / 6) (mkLim 1 (5 / 4))) 0))) (away (PI / 6)) < 0 /\
  involute_undercut_tooth ts 10 (PI / 6) (PI / 40) 0 (PI / 10) (Some (mkLim 1 (5 / 4))) = Ok (plane_involute_tooth ts 10 (PI / 6) (PI / 40)).
Proof.
  pose proof PI2_3_2. destruct (C42_solver_value_exists 10 (PI / 6)) as (s2 & S2); [lra|lra|].
  assert (S : solved (ex_ts s2) 10 (PI / 6)) by exact S2.
  exists (ex_ts s2). split; [exact S|]. split; [|split].
  - intros tau L. destruct (C92_every_pose (ex_ts s2) 10 (PI / 6) (PI / 40) (mkLim 1 (5 / 4)) tau ex_usual S L) as (t & T & H1).
    assert (D0 : Rabs (t - t) < PI) by (replace (t - t) with 0 by ring; rewrite Rabs_R0; lra).
    destruct (proj2 (H1 t T D0) eq_refl) as (u & E). exists t, u. split; [exact T|exact E].
  - assert (T0 : 0 < tan (PI / 6)) by (apply tan_gt_0; lra).
    assert (T1 : tan (PI / 6) <= 1).
    { rewrite tan_PI6. apply Rle_div_l; [apply sqrt_lt_R0; lra|]. rewrite Rmult_1_l, <- sqrt_1. apply sqrt_le_1_alt. lra. }
    assert (DD : Rabs (0 - tan (PI / 6)) < PI) by (rewrite Rabs_left; lra).
    pose proof (C92_one_side (ex_ts s2) 10 (PI / 6) (PI / 40) (mkLim 1 (5 / 4)) (tan (PI / 6)) 0 0 ex_usual S ltac:(lra) ltac:(lra) ltac:(lra) DD) as Q.
    cbn zeta in Q. replace (PI / 40 + tan (PI / 6) - tan (PI / 6)) with (PI / 40) in Q by ring. exact Q.
  - apply (C93_untouched (ex_ts s2) 10 (PI / 6) (PI / 40) (PI / 10) _ ex_usual S). unfold involute_base. dch. cbn [lm_hd].
    rewrite cos_PI6. assert (sqrt 3 < 174 / 100); [|lra]. rewrite <- (sqrt_square (174 / 100)) by lra. apply sqrt_lt_1; lra.
Qed.

(** Two crossing lines. *)
Example C94_example : let l := one_line ORIGIN (V 2 0 0) in let under := line_curve (V 1 (-1) 0) (V 1 1 0) true in
  exists m q, trim_undercut (ex_ts (/ 2)) (Chain true l) under = Ok m /\ joined (leaves m) /\
    c_eval (hd under (leaves m)) 0 = V 1 (-1) 0 /\ c_eval (hd under (leaves m)) 1 = q /\ q = V 1 0 0 /\
    c_eval (last (leaves m) under) 1 = V 2 0 0.
Proof.
  intros l under. assert (NE : ORIGIN <> V 2 0 0) by (intros E; apply (f_equal vx) in E; cbn in E; lra).
  destruct (one_line_usable _ _ NE) as (U & J). fold l in U, J.
  destruct (C94_trim (ex_ts (/ 2)) l under under U J (new_fresh _ _ _ _) NDIV_2 eq_refl) as (m & q & post & T & LM & PN & NQ & HQ & JP & H0 & H1 & LL & JI).
  assert (X : trim_solution (ex_ts (/ 2)) (Chain true l) (nth 1 (portions (length_array l)) 0) under 1 = (/ 2, / 2)).
  { unfold trim_solution, ex_ts. cbn [ts_meet fst snd]. destruct (Rlt_dec _ _); reflexivity. }
  rewrite X in *. cbn [fst snd] in *.
  assert (EU : c_eval under (/ 2) = V 1 0 0) by (unfold under; rewrite line_eval; apply vec_eq; vec_simpl; field).
  assert (EQ : q = V 1 0 0).
  { unfold l in NQ. rewrite (one_line_eval _ _ (/ 2) NE) in NQ. apply Ok_inj in NQ. rewrite <- NQ. apply vec_eq; vec_simpl; field. }
  exists m, q. split; [exact T|]. split; [apply JI; congruence|]. split; [|split; [congruence|split; [exact EQ|]]].
  - rewrite H0. unfold under. rewrite line_eval. apply vec_eq; vec_simpl; ring.
  - rewrite LL. change (c_eval (line_curve ORIGIN (V 2 0 0) true) 1 = V 2 0 0). rewrite line_eval. apply vec_eq; vec_simpl; ring.
Qed.
