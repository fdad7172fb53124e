(** C116: the part that build_part makes of a cylindrical involute gear has a closed skin. *)
From Coq Require Import Nsatz Reals ZArith Lra Lia List Bool Arith Permutation.
From Verif Require Import Num Vec Coords CoordsProps Transform TransformProps Params Bezier BezierLem BezierProps Interp Curve CurveLem CurveProps
  ArcLem ArcProps Chain ChainLem ChainProps NurbsProps Gen GenProps GearMath GearLem MeshDistProps Tooth Wrapper Info InfoProps HelicalProps RefLines RefLinesProps Profile ProfileLem ProfileProps
  Build BuildProps Convert ConvertProps NurbConvProps Fillet FilletProps FlankProps Teeth RackConjProps UndercutProps Report ReportProps MeshProps SpurProps RadiiProps Faces FacesProps Part.
From Verif Require IndexProps.
Import ListNotations.
Open Scope R_scope.

(** ** A trimmed tooth is a plain list of curves *)
Definition flat_tooth (t : node) : Prop := exists cs, t = Chain true (map Prim cs) /\ List.Forall (fun c => ~ is_nurb c) cs.

Lemma flat_curves cs : get_curves (Chain true (map Prim cs)) = cs.
Proof. cbn. induction cs as [|c cs IH]; [reflexivity|]. cbn. rewrite IH. reflexivity. Qed.
Lemma flat_leaves cs : leaves (Chain true (map Prim cs)) = filter c_act cs.
Proof. cbn. induction cs as [|c cs IH]; [reflexivity|]. cbn. rewrite IH. destruct (c_act c); reflexivity. Qed.
(** The curves of a trimmed tooth, whether it is a chain or a single curve. *)
Definition plain_flank (t : node) : Prop := leaves t = filter c_act (get_curves t) /\ List.Forall (fun c => ~ is_nurb c) (get_curves t).
Lemma flat_plain t : flat_tooth t -> plain_flank t.
Proof. intros (cs & -> & F). split; [rewrite flat_curves; apply flat_leaves|rewrite flat_curves; exact F]. Qed.
Lemma refresh_prims cs : map refresh (map Prim cs) = map Prim (map refresh_curve cs).
Proof. rewrite !map_map. apply map_ext. intros c. unfold refresh, refresh_curve. cbn [n_active]. destruct (c_act c); reflexivity. Qed.
Lemma nurb_update c : ~ is_nurb c -> ~ is_nurb (update_lengths c).
Proof. unfold is_nurb. rewrite update_shape. auto. Qed.
Lemma nurb_refresh c : ~ is_nurb c -> ~ is_nurb (refresh_curve c).
Proof. intros H. unfold refresh_curve. destruct (c_act c); [apply nurb_update, H|exact H]. Qed.
Lemma nurb_domain c a b : ~ is_nurb c -> ~ is_nurb (update_lengths (with_domain c a b)).
Proof. intros H. apply nurb_update. exact H. Qed.
Lemma Forall_map_refresh cs : List.Forall (fun c => ~ is_nurb c) cs -> List.Forall (fun c => ~ is_nurb c) (map refresh_curve cs).
Proof. intros F. rewrite List.Forall_forall in *. intros c I. apply in_map_iff in I. destruct I as (d & <- & I). apply nurb_refresh, F, I. Qed.

Lemma nth_set (f : curve -> R -> curve) cs i u m :
  nth i (map (fun n : node => match n with Prim c => fun s => Ok (Prim (f c s)) | Chain _ _ => fun _ => Err IndexError end) (map Prim cs)) (fun _ => Err IndexError) u = Ok m ->
  exists c, In c cs /\ m = Prim (f c u).
Proof.
  intros E. destruct (Nat.lt_ge_cases i (length cs)) as [L|L].
  - rewrite map_map in E. rewrite (nth_indep _ _ (fun s => Ok (Prim (f dummy_curve s)))) in E by (rewrite map_length; exact L).
    rewrite (map_nth (fun c s => Ok (Prim (f c s)))) in E. injection E as <-. exists (nth i cs dummy_curve). split; [apply nth_In, L|reflexivity].
  - rewrite nth_overflow in E by (rewrite !map_length; exact L). discriminate.
Qed.
Lemma flat_end t s m : flat_tooth t -> n_set_end false t s = Ok m -> flat_tooth m.
Proof.
  intros (cs & -> & F) E. cbn [n_set_end] in E. destruct (get_s_index _ _) as [[i u]|]; [|discriminate]. cbn [bind fst snd] in E.
  destruct (nth i _ _ u) as [m'|] eqn:N; [|discriminate]. cbn [bind] in E. injection E as <-.
  destruct (nth_set set_end_on cs i u m') as (c & IC & ->). { rewrite <- N. f_equal. rewrite !map_map. reflexivity. }
  exists (map refresh_curve (firstn i cs ++ [set_end_on c u])). split.
  - f_equal. rewrite firstn_map. change [Prim (set_end_on c u)] with (map Prim [set_end_on c u]). rewrite <- map_app. apply refresh_prims.
  - apply Forall_map_refresh. rewrite List.Forall_forall in *. intros d I. apply in_app_or in I. destruct I as [I|[<-|[]]].
    + apply F. rewrite <- (firstn_skipn i cs). apply in_or_app. left. exact I.
    + apply nurb_domain, F, IC.
Qed.
Lemma flat_start t s m : flat_tooth t -> n_set_start false t s = Ok m -> flat_tooth m.
Proof.
  intros (cs & -> & F) E. cbn [n_set_start] in E. destruct (get_s_index _ _) as [[i u]|]; [|discriminate]. cbn [bind fst snd] in E.
  destruct (nth i _ _ u) as [m'|] eqn:N; [|discriminate]. cbn [bind app] in E. injection E as <-.
  destruct (nth_set set_start_on cs i u m') as (c & IC & ->). { rewrite <- N. f_equal. rewrite !map_map. reflexivity. }
  exists (map refresh_curve (set_start_on c u :: skipn (S i) cs)). split.
  - f_equal. rewrite <- refresh_prims. unfold set_start_on. cbn [map]. rewrite <- (skipn_map Prim (S i) cs). reflexivity.
  - apply Forall_map_refresh. rewrite List.Forall_forall in *. intros d [<-|I].
    + apply nurb_domain, F, IC.
    + apply F. rewrite <- (firstn_skipn (S i) cs). apply in_or_app. right. exact I.
Qed.
Lemma flat_trim sv tooth rc tipf rootf pitch t : flat_tooth tooth -> trim_flank sv tooth rc tipf rootf pitch = Ok t -> flat_tooth t.
Proof.
  intros F E. unfold trim_flank in E. destruct (trim_tip _ _ _ _ _) as [n1|] eqn:E1; [|discriminate]. cbn [bind] in E.
  assert (F1 : flat_tooth n1).
  { unfold trim_tip in E1. destruct (Rlt_dec 0 tipf); [injection E1 as <-; exact F|]. cbv zeta in E1.
    destruct (if fst (fst (sv_meet sv EQUALITY tooth (rc_a rc) (9 / 10) (- pitch / 8 / c_length (rc_a rc)))) then _ else _) as [[ok x0] x1].
    destruct (n_eval tooth x0); [|discriminate]. cbn [bind] in E1. destruct (_ && _); eapply flat_end; eassumption. }
  clear E1. unfold trim_root in E. destruct (Rlt_dec 0 rootf); [injection E as <-; exact F1|]. cbv zeta in E.
  destruct (sv_meet sv EQUALITY n1 _ _ _) as [[ok1 a0] a1]. destruct (n_eval n1 a0); [|discriminate]. cbn [bind] in E.
  destruct (sv_meet sv MINDISTANCE n1 _ _ _) as [[ok2 b0] b1].
  match type of E with context [if ok1 then ?x else ?y] => destruct (if ok1 then x else y) as [ok x0] end.
  destruct (n_eval n1 x0); [|discriminate]. cbn [bind] in E. destruct (_ && _); eapply flat_start; eassumption.
Qed.

(** ** Sections made by the profile code repeat *)
Lemma closing_not_nurb a b ce r y : ~ is_nurb (closing_arc a b ce r y).
Proof.
  unfold closing_arc, from_2_point_center, arc_from_frame. destruct (Rlt_dec _ _).
  - destruct (as_euler_zyx _) as [[? ?] ?]. intros (ps & ws & E). unfold arc_curve in E. rewrite arc_new_shape in E. discriminate.
  - intros (ps & ws & E). unfold arc_curve in E. rewrite arc_new_shape in E. discriminate.
Qed.
Section Bridge.
  Variables (t : node) (pitch : R) (p : profile).
  Hypothesis F : flank_ok t.
  Hypothesis FR : List.Forall fresh (leaves t).
  Hypothesis NO : not_opposite t pitch.
  Hypothesis AS : assembled t pitch p.
  Hypothesis FT : plain_flank t.
  Hypothesis RG : / 10000000000 < root_gap t pitch.
  Hypothesis TG : / 10000000000 < tip_gap t.

  Definition cleg (c : curve) : vec * vec := (c_eval c 0, c_eval c 1).
  Lemma legs_active cs : map snd (filter fst (map leg (map CPlain cs))) = map cleg (filter c_act cs).
  Proof. induction cs as [|c cs IH]; [reflexivity|]. cbn [map filter leg fst cv_curve]. destruct (c_act c); [cbn [map snd]; rewrite IH; reflexivity|exact IH]. Qed.
  Definition mleg (c : curve) : vec * vec := (flip (c_eval c 1), flip (c_eval c 0)).
  Lemma legs_mirror cs : map snd (filter fst (rev (map (fun i => back (c_act (cv_curve i), image across (starts i, ends i))) (map CPlain cs)))) =
    rev (map mleg (filter c_act cs)).
  Proof.
    rewrite filter_rev', map_rev. f_equal. induction cs as [|c cs IH]; [reflexivity|]. cbn [map filter back fst cv_curve].
    destruct (c_act c); [cbn [map snd]; rewrite IH; reflexivity|exact IH].
  Qed.
  Lemma joined_connected cs : joined cs -> connected (map cleg cs).
  Proof.
    induction cs as [|c cs IH]; [intros; exact I|]. destruct cs as [|d cs]; [intros; exact I|]. intros [E J]. split; [exact E|apply IH, J].
  Qed.
  Lemma connected_join a b : connected a -> connected b ->
    (a <> [] -> b <> [] -> snd (last a (ORIGIN, ORIGIN)) = fst (hd (ORIGIN, ORIGIN) b)) -> connected (a ++ b).
  Proof.
    intros CA CB E. induction a as [|s a IH]; [exact CB|]. destruct a as [|s' a].
    - destruct b as [|u b]; [exact I|]. split; [apply E; discriminate|exact CB].
    - destruct CA as [E1 CA]. change (snd s = fst s' /\ connected ((s' :: a) ++ b)). split; [exact E1|].
      apply IH; [exact CA|]. intros _ NB. rewrite <- E; [reflexivity|discriminate|exact NB].
  Qed.
  Lemma joined_mirror cs : joined cs -> connected (rev (map mleg cs)).
  Proof.
    induction cs as [|c cs IH]; [intros; exact I|]. intros J. cbn [map rev]. apply connected_join; [|exact I|].
    - apply IH. destruct cs; [exact I|apply J].
    - intros NA _. destruct cs as [|d cs]; [contradiction|]. cbn [map rev hd]. rewrite last_last. cbn [snd fst mleg]. destruct J as [-> _]. reflexivity.
  Qed.

  Lemma map_cleg_ends d : fst (hd d (map cleg (leaves t))) = n_point t 0 /\ snd (last (map cleg (leaves t)) d) = n_point t 1.
  Proof.
    destruct (flank_ends t F dummy_curve) as (-> & ->). pose proof (flank_nonempty t F) as NE.
    rewrite (hd_map cleg _ dummy_curve), (last_map cleg _ dummy_curve) by exact NE. split; reflexivity.
  Qed.
  Lemma rev_mleg_ends d : fst (hd d (rev (map mleg (leaves t)))) = flip (n_point t 1) /\ snd (last (rev (map mleg (leaves t))) d) = flip (n_point t 0).
  Proof.
    destruct (flank_ends t F dummy_curve) as (-> & ->). pose proof (flank_nonempty t F) as NE.
    rewrite hd_rev, last_rev, (hd_map mleg _ dummy_curve), (last_map mleg _ dummy_curve) by exact NE. split; reflexivity.
  Qed.

  Lemma bridge ca apex mid e T : connectable ca apex (c_eval (pr_ro p) 0) (turn (- pitch) (flip (n_point t 0))) ->
    connectable ca apex (c_eval (pr_ro p) 1) (flip (n_point t 0)) -> generate_profile_extensions p ca apex mid = Ok e ->
    g_orient T = UNIT3X3 -> vx (g_center T) = 0 -> vy (g_center T) = 0 -> regular_section (cv_of_ext e) T pitch /\
    outline_start (cv_of_ext e) = turn (- pitch) (flip (n_point t 0)) /\
    route (cv_of_ext e) = (turn (- pitch) (flip (n_point t 0)), n_point t 0) :: map cleg (leaves t) ++ (n_point t 1, flip (n_point t 1)) :: rev (map mleg (leaves t)) ++
      [(flip (n_point t 0), c_eval (pr_ro p) 1); (c_eval (pr_ro p) 1, c_eval (pr_ro p) 0); (c_eval (pr_ro p) 0, turn (- pitch) (flip (n_point t 0)))].
  Proof.
    intros K0 K2 EE TO TX TY. destruct FT as (LT & NN). set (cs := get_curves t) in *. set (P0 := n_point t 0). set (P1 := n_point t 1).
    assert (GC : get_curves (pr_tooth p) = cs) by (rewrite (as_tooth _ _ _ AS); reflexivity).
    destruct (profile_ends t pitch p F FR NO AS) as (_ & E0 & _). specialize (E0 RG).
    unfold generate_profile_extensions in EE. rewrite (as_tooth _ _ _ AS), (leaves_wf t (fo_act t F) (fo_pos t F)), E0 in EE. cbn [bind] in EE.
    assert (M1 : c_eval (pr_mirror p) 1 = flip P0) by (rewrite (as_mirror _ _ _ AS); apply (mirror_end t F)).
    rewrite M1 in EE. fold P0 in EE. set (A := turn (- pitch) (flip P0)) in *.
    destruct (rd_facts t pitch p NO AS) as (_ & _ & _ & _ & _ & _ & RD). destruct (RD RG) as (RD0 & RD1 & RD2). clear RD. fold P0 in RD1, RD2. fold A in RD1.
    destruct (ra_facts t pitch p NO AS) as (_ & _ & _ & _ & _ & _ & RA). destruct (RA TG) as (RA0 & RA1 & RA2). clear RA. fold P1 in RA1, RA2.
    assert (AD : c_act (pr_rd p) = true) by (unfold arc_if in RD0; destruct (c_act (pr_rd p)); [reflexivity|discriminate]).
    assert (AA : c_act (pr_ra p) = true) by (unfold arc_if in RA0; destruct (c_act (pr_ra p)); [reflexivity|discriminate]).
    assert (RR : c_act (pr_ro p) = true /\ ~ is_nurb (pr_ro p)).
    { destruct (as_ro _ _ _ AS) as (r & an & ce & y & ->). pose proof (arc_runs r an ce y) as RU. split; apply RU. }
    pose proof (connector_runs ca apex (c_eval (pr_ro p) 0) A K0) as R0.
    pose proof (connector_runs ca apex (c_eval (pr_ro p) 1) (flip P0) K2) as R2.
    set (c0 := connector ca apex (c_eval (pr_ro p) 0) A) in *. set (c2 := connector ca apex (c_eval (pr_ro p) 1) (flip P0)) in *.
    assert (CV : cv_of_ext e = mkCP (map CPlain cs) (CPlain (pr_ra p)) (CPlain (pr_rd p)) (CPlain (pr_ro p)) (CPlain c0) (CPlain c2)).
    { injection EE as <-. unfold cv_of_ext. cbn [ex_base ex_ro0 ex_ro2]. rewrite GC. reflexivity. }
    assert (RT : route (cv_of_ext e) = (A, P0) :: map cleg (leaves t) ++ (P1, flip P1) :: rev (map mleg (leaves t)) ++
      [(flip P0, c_eval (pr_ro p) 1); (c_eval (pr_ro p) 1, c_eval (pr_ro p) 0); (c_eval (pr_ro p) 0, A)]).
    { rewrite CV. unfold route. cbn [cp_rd cp_ra cp_tooth cp_ro cp_ro0 cp_ro2]. cbn [filter]. unfold leg at 1. cbn [fst cv_curve]. rewrite AD. cbn [map snd].
      change (snd (leg (CPlain (pr_rd p)))) with (c_eval (pr_rd p) 0, c_eval (pr_rd p) 1). rewrite RD1, RD2. f_equal. rewrite filter_app, map_app, legs_active, <- LT. f_equal.
      cbn [filter]. unfold leg at 1. cbn [fst cv_curve]. rewrite AA. cbn [map snd]. change (snd (leg (CPlain (pr_ra p)))) with (c_eval (pr_ra p) 0, c_eval (pr_ra p) 1). rewrite RA1, RA2. f_equal.
      rewrite filter_app, map_app, legs_mirror, <- LT. f_equal.
      unfold back, leg, starts, ends. cbn [filter cv_curve fst snd]. rewrite (ru_act _ _ _ R0), (ru_act _ _ _ R2), (proj1 RR). cbn [map snd].
      rewrite (ru_0 _ _ _ R0), (ru_1 _ _ _ R0), (ru_0 _ _ _ R2), (ru_1 _ _ _ R2). reflexivity. }
    assert (OS : outline_start (cv_of_ext e) = A) by (unfold outline_start; rewrite RT; reflexivity).
    assert (NB : forall c, ~ is_nurb c -> convertible (CPlain c)).
    { intros c N. cbn [convertible]. destruct (c_shape c) eqn:E; try exact I. exfalso. apply N. eexists. eexists. exact E. }
    split; [|split; [exact OS|exact RT]]. rewrite CV.
    split; [|split; [|split; [|split; [|split]]]].
    - unfold all_convertible. cbn [cp_tooth cp_ra cp_rd cp_ro cp_ro0 cp_ro2]. split.
      { rewrite List.Forall_forall in *. intros i I. apply in_map_iff in I. destruct I as (c & <- & I). apply NB, NN, I. }
      destruct (as_ra _ _ _ AS) as (r1 & y1 & ->). destruct (as_rd _ _ _ AS) as (r2 & y2 & ->).
      repeat split; apply NB; try apply closing_not_nurb; [apply RR|apply R0|apply R2].
    - cbn [cp_tooth]. pose proof (flank_nonempty t F) as NE. rewrite LT in NE. clear - NE. induction cs as [|c cs IH]; [contradiction|].
      cbn [map existsb cv_curve filter] in *. destruct (c_act c); [reflexivity|apply IH, NE].
    - rewrite <- CV, RT. pose proof (flank_nonempty t F) as NE.
      assert (N1 : map cleg (leaves t) <> []) by (destruct (leaves t); [contradiction|discriminate]).
      assert (N2 : rev (map mleg (leaves t)) <> []) by (intros Z; apply (f_equal (@rev _)) in Z; rewrite rev_involutive in Z; destruct (leaves t); [contradiction|discriminate]).
      destruct (map_cleg_ends (ORIGIN, ORIGIN)) as (H1 & H2). destruct (rev_mleg_ends (ORIGIN, ORIGIN)) as (H3 & H4).
      apply (connected_join [(A, P0)]); [exact I| |].
      + apply connected_join; [apply joined_connected, F| |].
        * apply (connected_join [(P1, flip P1)]); [exact I| |].
          -- apply connected_join; [apply joined_mirror, F|repeat split|]. intros _ _. rewrite H4. reflexivity.
          -- intros _ _. cbn [last snd]. unfold P1. rewrite <- H3. destruct (rev (map mleg (leaves t))); [contradiction|reflexivity].
        * intros _ _. rewrite H2. reflexivity.
      + intros _ _. cbn [last snd]. unfold P0. rewrite <- H1. destruct (map cleg (leaves t)); [contradiction|reflexivity].
    - unfold ring_active. cbn [cp_ro cp_ro0 cp_ro2 cv_curve]. rewrite (ru_act _ _ _ R0), (ru_act _ _ _ R2), (proj1 RR). reflexivity.
    - rewrite <- CV at 2. rewrite OS. unfold ends. cbn [cp_ro2 cv_curve]. rewrite (ru_1 _ _ _ R2). unfold A. rewrite <- turn_rotz, turn_turn.
      replace (pitch + - pitch) with 0 by ring. rewrite turn_0. reflexivity.
    - auto.
  Qed.
End Bridge.

(** ** The sections of a gear *)
(** What the constructors of cylindrical involute gears fill in. *)
Record cyl_gear (g : igear) (n : Z) : Prop := {
  cg_n : (0 < n)%Z;
  cg_teeth : ip_teeth (ig_in g) = IZR n; cg_cone : k_cone (ig_core g) = 0; cg_gamma : k_gamma (ig_core g) = 0;
  cg_rp : k_rp (ig_core g) = IZR n / 2;
  cg_num : num_teeth (k_tooth (ig_core g)) = IZR n; cg_cut : num_cutout (k_tooth (ig_core g)) = 0 }.

Lemma cg_act g n : cyl_gear g n -> num_teeth_act (k_tooth (ig_core g)) = n.
Proof. intros H. unfold num_teeth_act. rewrite (cg_num _ _ H), (cg_cut _ _ H), Rminus_0_r. apply floorZ_IZR. Qed.

Lemma section_made sv fs ts mid h n z rc t : cyl_gear (h_gear h) n -> flank_of sv fs ts (h_gear h) z rc t -> plain_flank t ->
  / 10000000000 < root_gap t (2 * PI / IZR n) -> / 10000000000 < tip_gap t ->
  exists cp, gear_section sv fs ts mid h z = Ok cp /\ regular_section cp (section_trf h z) (2 * PI / IZR n) /\
    outline_start cp = turn (- (2 * PI / IZR n)) (flip (n_point t 0)) /\
    (let a := turn (- (2 * PI / IZR n)) (flip (n_point t 0)) in let b := n_point t 0 in cp_rd cp = CPlain (from_2_point_center a b (axis_center a b) 0 true)) /\
    (let a := n_point t 1 in let b := flip (n_point t 1) in cp_ra cp = CPlain (from_2_point_center a b (axis_center a b) 0 true)) /\
    cp_tooth cp = map CPlain (get_curves t).
Proof.
  intros CG [FO NO (tooth & f & ET & ERC & EF & FR & TR)] FT RG TG. cbv zeta in *. rewrite (cg_teeth _ _ CG) in *.
  set (g := h_gear h) in *. set (pitch := 2 * PI / IZR n) in *.
  pose proof (trim_leaves_fresh _ _ _ _ _ _ _ FR TR) as FL. destruct (assemble_ok t rc pitch FO FL NO) as (p0 & EP & AS).
  unfold gear_section. fold g. unfold ig_profile. rewrite ET. cbn [bind]. unfold generate_reference_profile. rewrite <- ERC, (cg_teeth _ _ CG). fold pitch. rewrite EF. cbn [bind].
  unfold trim_reference_profile. rewrite TR. cbn [bind]. rewrite EP. cbn [bind]. rewrite (cg_cone _ _ CG).
  set (p := mkPr _ _ _ _ _ _ _). assert (AS' : assembled t pitch p) by (destruct AS; split; assumption).
  assert (EX : exists e, generate_profile_extensions p 0 (c_center (k_recipe_cone (ig_core g))) (mid p) = Ok e).
  { destruct (start_exists t pitch p FO FL NO AS') as (a & EA & _). unfold generate_profile_extensions.
    rewrite EA, (as_tooth _ _ _ AS'), (leaves_wf t (fo_act t FO) (fo_pos t FO)). cbn [bind]. eexists. reflexivity. }
  destruct EX as (e & EE). rewrite EE. cbn [bind]. exists (cv_of_ext e). split; [reflexivity|].
  destruct (bridge t pitch p FO FL NO AS' FT RG TG 0 (c_center (k_recipe_cone (ig_core g))) (mid p) e (section_trf h z) (or_introl eq_refl) (or_introl eq_refl) EE) as (RS & OS & _).
  - reflexivity.
  - unfold section_trf. cbn. ring.
  - unfold section_trf. cbn. ring.
  - assert (EB : ex_base e = p).
    { unfold generate_profile_extensions in EE. destruct (n_eval (pr_tooth p) 0) as [x|]; cbn [bind] in EE; [|discriminate].
      destruct (n_eval (pr_chain p) 0) as [y|]; cbn [bind] in EE; [|discriminate]. apply Ok_inj in EE. rewrite <- EE. reflexivity. }
    split; [exact RS|]. split; [exact OS|]. unfold cv_of_ext. rewrite EB. cbn [cp_rd cp_ra cp_tooth].
    destruct (as_rd _ _ _ AS') as (r & y & ->). destruct (as_ra _ _ _ AS') as (r' & y' & ->). rewrite (as_tooth _ _ _ AS').
    cbv zeta. rewrite !closing_active; [auto|exact TG|exact RG].
Qed.

(** A section with teeth: its trimmed flank [t] is made of plain curves, the lands at the tip and at the root are wider than the 1e-10 up
    to which they are left out, and neighbouring teeth begin further apart than the tolerance of [is_closed]. *)
Record toothed (sv : solver) (fs : fsolver) (ts : tsolver) (g : igear) (n : Z) (z : R) (t : node) : Prop := {
  td_flank : exists rc, flank_of sv fs ts g z rc t;
  td_flat : plain_flank t;
  td_root : / 10000000000 < root_gap t (2 * PI / IZR n);
  td_tip : / 10000000000 < tip_gap t;
  td_apart : DELTA / 100 <= 2 * axis_dist (n_point t 0) * sin (PI / IZR n) }.

Lemma chord_sq q a : dot (vsub q (mapp (rotz a) q)) (vsub q (mapp (rotz a) q)) = Rsqr (2 * axis_dist q * sin (a / 2)).
Proof.
  unfold axis_dist, Rsqr. assert (P : 0 <= vx q * vx q + vy q * vy q) by (pose proof (Rle_0_sqr (vx q)); pose proof (Rle_0_sqr (vy q)); unfold Rsqr in *; lra).
  pose proof (sqrt_sqrt _ P) as E. replace (2 * sqrt (vx q * vx q + vy q * vy q) * sin (a / 2) * (2 * sqrt (vx q * vx q + vy q * vy q) * sin (a / 2)))
    with (4 * (sqrt (vx q * vx q + vy q * vy q) * sqrt (vx q * vx q + vy q * vy q)) * (sin (a / 2) * sin (a / 2))) by ring. rewrite E.
  assert (C : cos a = 1 - 2 * (sin (a / 2) * sin (a / 2))) by (replace a with (2 * (a / 2)) at 1 by field; rewrite cos_2a_sin; ring).
  pose proof (sc1 a) as SC. destruct q as [x y w]. unfold dot, vsub, mapp, rotz. cbn. revert C SC.
  generalize (sin a) (cos a) (sin (a / 2)). clear. intros s c u C SC. nsatz.
Qed.
Lemma chord_len q a : 0 <= a / 2 <= PI -> norm (vsub q (mapp (rotz a) q)) = 2 * axis_dist q * sin (a / 2).
Proof.
  intros A. unfold norm. rewrite chord_sq, sqrt_Rsqr; [reflexivity|]. apply Rmult_le_pos; [|apply sin_ge_0; lra].
  apply Rmult_le_pos; [lra|]. apply sqrt_pos.
Qed.
Lemma axis_dist_turn a q : axis_dist (turn a q) = axis_dist q.
Proof.
  unfold axis_dist, turn. cbn [vx vy]. f_equal. pose proof (sc1 a) as SC. revert SC. generalize (sin a) (cos a) (vx q) (vy q). clear. intros. nsatz.
Qed.
Lemma axis_dist_flip q : axis_dist (flip q) = axis_dist q.
Proof. unfold axis_dist, flip. cbn [vx vy]. f_equal. ring. Qed.

Lemma tweens_many nv : (2 <= nv)%nat -> (nv <= n_z_tweens nv 3)%nat.
Proof.
  intros H. unfold n_z_tweens. pose proof (ceilZ_bound ((INR nv - 2) * 3)) as [C _]. rewrite INR_IZR_INZ in *. rewrite <- minus_IZR, <- mult_IZR in *.
  apply le_IZR in C. lia.
Qed.

Section Closed.
  Variables (sv : solver) (fs : fsolver) (ts : tsolver) (mid : profile -> R).
  Variables (h : hgear) (n : Z) (nv : nat).
  Hypothesis CG : cyl_gear (h_gear h) n.
  Let zs := k_zvals (ig_core (h_gear h)).
  Let heights := concat (z_stacks zs (n_z_tweens nv 3)).
  Hypothesis TD : forall z, In z heights -> exists t, toothed sv fs ts (h_gear h) n z t.
  Let prof := section_at sv fs ts mid h.
  Let trf := section_trf h.
  Let pitch := 2 * PI / IZR n.

  Lemma section_known z : In z heights -> gear_section sv fs ts mid h z = Ok (prof z) /\ regular_section (prof z) (trf z) pitch /\
    DELTA / 100 <= norm (vsub (place trf z (outline_start (prof z))) (mapp (rotz pitch) (place trf z (outline_start (prof z))))).
  Proof.
    intros I. destruct (TD z I) as (t & [(rc & FL) FT RG TG AP]).
    destruct (section_made sv fs ts mid h n z rc t CG FL FT RG TG) as (cp & E & RS & OS & _).
    assert (PE : prof z = cp) by (unfold prof, section_at; rewrite E; reflexivity). rewrite PE. split; [exact E|]. split; [exact RS|].
    destruct RS as (_ & _ & _ & _ & _ & TO & TX & TY).
    change (g_orient (trf z) = UNIT3X3) in TO. change (vx (g_center (trf z)) = 0) in TX. change (vy (g_center (trf z)) = 0) in TY. unfold place. rewrite <- (place_spin (trf z) pitch) by assumption.
    set (q := outline_start cp) in *. rewrite !apply_gear_transform_eq. rewrite TO, !mapp_I.
    assert (N1 : 1 <= IZR n) by (apply IZR_le; pose proof (cg_n _ _ CG); lia). pose proof PI_RGT_0.
    assert (SC : g_scale (trf z) = 1).
    { unfold trf, section_trf. cbn [g_scale k_slice]. rewrite (cg_gamma _ _ CG), sin_0, (cg_num _ _ CG). field. lra. }
    rewrite SC. set (r := rotz (g_angle (trf z))).
    assert (ED : norm (vsub (vadd (smul 1 (mapp r q)) (g_center (trf z))) (vadd (smul 1 (mapp r (mapp (rotz pitch) q))) (g_center (trf z)))) =
      norm (vsub (mapp r q) (mapp (rotz pitch) (mapp r q)))).
    { f_equal. unfold r. rewrite <- (mapp_mmul (rotz pitch)), rotz_comm, mapp_mmul. apply vec_eq; cbn; ring. }
    eapply Rle_trans; [|apply Req_le; symmetry; exact ED].
    assert (HP : pitch / 2 = PI / IZR n) by (unfold pitch; field; lra).
    rewrite chord_len, HP.
    - unfold r. rewrite <- turn_rotz, axis_dist_turn, OS, axis_dist_turn, axis_dist_flip. exact AP.
    - rewrite HP. split; [apply Rlt_le, Rdiv_lt_0_compat; lra|]. apply (Rmult_le_reg_r (IZR n)); [lra|]. unfold Rdiv. rewrite Rmult_assoc, Rinv_l, Rmult_1_r by lra. nra.
  Qed.
End Closed.

(** Building a cylindrical gear, with any number of layers, gives faces that close: every edge belongs to exactly two of them. *)
Theorem C116_closed sv fs ts mid optC optS h n nhz nv K :
  cyl_gear (h_gear h) n -> (2 <= nhz)%nat -> (2 <= nv)%nat ->
  let zs := k_zvals (ig_core (h_gear h)) in let tw := n_z_tweens nv 3 in
  let prof := section_at sv fs ts mid h in let trf := section_trf h in
  (2 <= length zs)%nat ->
  (forall z, In z (concat (z_stacks zs tw)) -> (exists t, toothed sv fs ts (h_gear h) n z t) /\
     (forall c, section_chain optC nhz 3 prof trf z = Ok c -> nb_knots c = K)) ->
  tw = 2%nat \/ (forall hs, In hs (z_stacks zs tw) -> let tg := stack_target (map (chain_at optC nhz 3 prof trf) hs) in
     converged tg tw (S (last K 0%nat)) nv (optS tg)) ->
  exists c, build_gear sv fs ts mid optC optS h nhz nv = Ok c /\ paired (all_edges c) /\
    length (cy_sides c) = (Z.to_nat n * ((length zs - 1) * (length K - 4)))%nat.
Proof.
  intros CG Hz Hv zs tw prof trf LZ HS HC.
  assert (SK := section_known sv fs ts mid h n nv CG (fun z I => proj1 (HS z I))). cbv zeta in SK. fold prof trf zs tw in SK.
  assert (N1 : 1 <= IZR n) by (apply IZR_le; pose proof (cg_n _ _ CG); lia).
  unfold build_gear. fold zs. fold tw. rewrite (res_map_ok _ (map prof)).
  2:{ intros l I. apply res_map_ok. intros z IZ. apply SK. apply in_concat. exists l. auto. }
  cbn [bind]. rewrite (cg_act _ _ CG), (cg_num _ _ CG). unfold tp_pitch_angle. rewrite (cg_num _ _ CG).
  assert (T2 : (2 <= tw)%nat) by (apply tweens_ge; [exact Hv|lra]).
  apply C115_closed; try assumption.
  - lra.
  - apply (cg_n _ _ CG).
  - reflexivity.
  - intros z I. split; [apply SK, I|]. apply HS, I.
  - destruct HC as [HC|HC]; [left; exact HC|right]. split; [apply tweens_many, Hv|exact HC].
  - intros z E. right. apply SK. apply in_concat. destruct E as [->| ->].
    + exists (linspace (nth 0 zs 0) (nth 1 zs 0) tw). split.
      * unfold z_stacks. apply in_map_iff. exists 0%nat. split; [reflexivity|]. apply in_seq. lia.
      * replace (hd 0 zs) with (nth 0 zs 0) by (destruct zs; reflexivity). rewrite <- (linspace_hd (nth 0 zs 0) (nth 1 zs 0) tw) at 1 by lia.
        assert (L : linspace (nth 0 zs 0) (nth 1 zs 0) tw <> []) by (destruct tw as [|[|]]; [lia|lia|discriminate]).
        destruct (linspace _ _ tw); [contradiction|left; reflexivity].
    + exists (linspace (nth (length zs - 2) zs 0) (nth (S (length zs - 2)) zs 0) tw). split.
      * unfold z_stacks. apply in_map_iff. exists (length zs - 2)%nat. split; [reflexivity|]. apply in_seq. lia.
      * replace (last zs 0) with (nth (S (length zs - 2)) zs 0) by (apply last_nth'; lia).
        rewrite <- (linspace_last (nth (length zs - 2) zs 0) (nth (S (length zs - 2)) zs 0) tw) at 1 by lia.
        assert (L : linspace (nth (length zs - 2) zs 0) (nth (S (length zs - 2)) zs 0) tw <> []) by (destruct tw as [|[|]]; [lia|lia|discriminate]).
        clear - L. revert L. generalize (linspace (nth (length zs - 2) zs 0) (nth (S (length zs - 2)) zs 0) tw). intros l NE.
        rewrite (app_removelast_last 0 NE) at 2. apply in_or_app. right. left. reflexivity.
  - intros _ z _. unfold trf, section_trf. cbn. rewrite (cg_gamma _ _ CG), cos_0. ring.
Qed.

(** ** Plain involute teeth *)
(** Neither undercut nor fillets nor a tip reduction. *)
Record plain_teeth (g : igear) : Prop := {
  pt_under : ip_undercut (ig_in g) = false;
  pt_tip : ip_tip_fillet (ig_in g) = 0; pt_root : ip_root_fillet (ig_in g) = 0; pt_trunc : ip_tip_trunc (ig_in g) = 0 }.
(** The searches for the crossings with the tip and the root circle succeed, see C105. *)
Definition crossings_found (sv : solver) (ts : tsolver) (g : igear) (n : Z) (z : R) : Prop :=
  let k := ig_core g in let rp := IZR n / 2 in let pitch := 2 * PI / IZR n in
  let tooth := plane_involute_tooth ts rp (k_alpha k) (ig_pia g z) in
  let rc := generate_reference_circles rp (k_ha k) (k_hd k) (k_ho k) 0 rp in
  solved ts rp (k_alpha k) /\ top_found ts rp (k_alpha k) (ig_pia g z) /\
  tip_found sv tooth (rc_a rc) pitch /\
  (forall n1, trim_tip sv tooth (rc_a rc) 0 pitch = Ok n1 -> root_found sv n1 (rc_d rc) pitch).

Lemma involute_tooth_flat ts rp alpha pia : flat_tooth (plane_involute_tooth ts rp alpha pia).
Proof.
  unfold plane_involute_tooth. destruct (ts_meet _ _ _ _ _ _) as [[b s2] x]. set (s1 := snd _). unfold involute_tooth.
  set (f := involute_flank rp alpha pia s2 s1). set (l := line_curve _ _ true).
  exists (map refresh_curve [l; f]). split.
  - unfold new_chain. cbn [n_update map]. reflexivity.
  - apply Forall_map_refresh. repeat constructor.
    + intros (ps & ws & E). discriminate.
    + intros (ps & ws & E). discriminate.
Qed.

Lemma norm_ge p x : dot p p = x * x -> x <= norm p.
Proof. intros E. unfold norm. rewrite E. change (x * x) with (Rsqr x). rewrite sqrt_Rsqr_abs. apply Rle_abs. Qed.

Lemma land_width r a : 2 * r * sin (- a) <= norm (vsub (circle_pt r a) (flip (circle_pt r a))).
Proof. apply norm_ge. unfold circle_pt, flip, vsub, dot. cbn [vx vy vz]. rewrite sin_neg. ring. Qed.
Lemma gap_width r a p : 2 * r * sin (p / 2 + a) <= norm (vsub (turn (- p) (flip (circle_pt r a))) (circle_pt r a)).
Proof.
  apply norm_ge. set (s := p / 2 + a). set (w := p / 2). replace (- p) with (- (2 * w)) by (unfold w; field). replace a with (s - w) by (unfold s, w; ring).
  unfold turn, circle_pt, flip, vsub, dot. cbn [vx vy vz]. rewrite cos_neg, sin_neg, cos_2a, sin_2a, cos_minus, sin_minus.
  pose proof (sc1 s) as S1. pose proof (sc1 w) as S2. revert S1 S2. generalize (sin s) (cos s) (sin w) (cos w). clear. intros. nsatz.
Qed.

(** An involute gear has such sections where the teeth have a land at the tip circle and a gap at the root circle. *)
Theorem C116_involute sv fs ts g n z : cyl_gear g n -> plain_teeth g ->
  let k := ig_core g in let rp := IZR n / 2 in let pitch := 2 * PI / IZR n in let phi := flank_angle rp (k_alpha k) (ig_pia g z) in
  spur rp (k_alpha k) (ig_pia g z) (k_ha k) (k_hd k) pitch -> crossings_found sv ts g n z ->
  / 10000000000 < 2 * (rp + k_ha k) * sin (- phi (rp + k_ha k)) ->
  / 10000000000 < 2 * (rp - k_hd k) * sin (pitch / 2 + phi (rp - k_hd k)) ->
  DELTA / 100 <= 2 * (rp - k_hd k) * sin (PI / IZR n) ->
  exists t, toothed sv fs ts g n z t /\ n_point t 0 = circle_pt (rp - k_hd k) (phi (rp - k_hd k)) /\
    n_point t 1 = circle_pt (rp + k_ha k) (phi (rp + k_ha k)).
Proof.
  intros CG [U T0 R0 C0] k rp pitch phi SP (S & T & TF & RF) TW RW AP.
  destruct (C105_flank sv ts _ _ _ _ _ _ _ _ SP S T TF RF) as (t & TR & FO & NO & FR & P0 & P1 & _). exists t. split; [|split; [exact P0|exact P1]].
  pose proof (involute_tooth_flat ts rp (k_alpha k) (ig_pia g z)) as FL.
  split.
  - eexists. split; [exact FO|rewrite (cg_teeth _ _ CG); exact NO|]. do 2 eexists. cbv zeta. fold k. rewrite (cg_teeth _ _ CG), T0, R0, C0.
    fold pitch. split.
    { unfold ig_tooth. fold k. rewrite U. unfold k. rewrite (cg_cone _ _ CG), (cg_rp _ _ CG). destruct (Req_EM_T 0 0); [|contradiction]. unfold involute_tooth_curve.
      destruct (Req_EM_T 0 0); [|contradiction]. reflexivity. }
    split; [|split; [|split; [exact FR|exact TR]]].
    + replace (k_cone k) with 0 by (symmetry; apply (cg_cone _ _ CG)). replace (k_rp k) with rp by (symmetry; apply (cg_rp _ _ CG)). unfold reduced_circles. destruct (Rlt_dec 0 0); [lra|reflexivity].
    + unfold filleted_flank. destruct (Rlt_dec 0 0); [lra|reflexivity].
  - apply flat_plain. exact (flat_trim _ _ _ _ _ _ _ FL TR).
  - unfold root_gap. rewrite P0. eapply Rlt_le_trans; [exact RW|]. apply gap_width.
  - unfold tip_gap. rewrite P1. eapply Rlt_le_trans; [exact TW|]. apply land_width.
  - rewrite P0, flank_dist; [exact AP|]. apply SP.
Qed.

(** ** Gears without crowning *)
(** Without crowning the profile is the same at all heights. *)
Lemma pia_const g z z' : ip_crown (ig_in g) = 0 -> ig_pia g z = ig_pia g z'.
Proof. intros H. unfold ig_pia, crowning. rewrite H. unfold Rdiv. ring. Qed.
Lemma tooth_const ts g z z' : ip_crown (ig_in g) = 0 -> ig_tooth ts g z = ig_tooth ts g z'.
Proof. intros H. unfold ig_tooth. rewrite (pia_const g z z' H). reflexivity. Qed.
Lemma toothed_const sv fs ts g n z z' t : ip_crown (ig_in g) = 0 -> toothed sv fs ts g n z t -> toothed sv fs ts g n z' t.
Proof.
  intros H [(rc & [A B (tooth & f & ET & D)]) FT RG TG AP]. split; try assumption. exists rc. split; [exact A|exact B|].
  exists tooth, f. cbv zeta in *. rewrite (tooth_const ts g z' z H). auto.
Qed.
Lemma section_const sv fs ts mid h z z' cp : ip_crown (ig_in (h_gear h)) = 0 ->
  gear_section sv fs ts mid h z = Ok cp -> gear_section sv fs ts mid h z' = Ok cp.
Proof.
  intros H. unfold gear_section, ig_profile. rewrite (tooth_const ts _ z' z H). destruct (ig_tooth ts (h_gear h) z) as [tooth|]; cbn [bind]; [|discriminate].
  unfold generate_reference_profile. destruct (filleted_flank _ _ _ _ _ _) as [f|]; cbn [bind]; [|discriminate].
  destruct (trim_reference_profile _ _ _ _ _ _) as [p|]; cbn [bind]; [|discriminate].
  unfold generate_profile_extensions. unfold pr_chain. cbn [pr_tooth pr_mirror pr_rd pr_ra pr_ro pr_pitch].
  destruct (n_eval (pr_tooth p) 0) as [a|]; cbn [bind]; [|discriminate]. destruct (n_eval _ 0) as [b|]; cbn [bind]; [|discriminate].
  intros E. apply Ok_inj in E. rewrite <- E. reflexivity.
Qed.

(** The converted section is the image of the converted profile. *)
Definition moved (f : vec -> vec) (c : list vec * list R) : list vec * list R := (map f (fst c), snd c).
Lemma nc_id c : nc_transform (fun q => q) c = c.
Proof. destruct c. unfold nc_transform. cbn. rewrite map_id. reflexivity. Qed.
Lemma closed_map opt n samp gt p : nurb_profile_closed opt n samp gt p =
  bind (nurb_profile_closed opt n samp (fun q => q) p) (fun l => Ok (map (nc_transform gt) l)).
Proof.
  unfold nurb_profile_closed. destruct (tooth_mirror _) as [m|]; cbn [bind]; [|reflexivity].
  assert (I : forall l, map (nc_transform (fun q => q)) l = l) by (intros l; rewrite <- (map_id l) at 2; apply map_ext; apply nc_id).
  rewrite !nc_id, !I. cbn [map]. rewrite !map_app. cbn [map]. rewrite map_app. cbn [map].
  assert (R : forall c, nc_transform gt (nc_reverse c) = nc_reverse (nc_transform gt c)) by (intros c; unfold nc_transform, nc_reverse; cbn; rewrite map_rev; reflexivity).
  rewrite !R. reflexivity.
Qed.
Lemma members_map f l : surface_members (map (nc_transform f) l) = map (moved f) (surface_members l).
Proof.
  unfold surface_members. induction l as [|c l IH]; [reflexivity|]. cbn [map filter]. change (nc_active (nc_transform f c)) with (nc_active c).
  destruct (nc_active c); cbn [map]; rewrite IH; reflexivity.
Qed.
Lemma knots_moved f : forall l k, knots_from k (map (moved f) l) = knots_from k l.
Proof. induction l as [|c l IH]; intros k; [reflexivity|]. cbn [map knots_from moved fst]. rewrite map_length, IH. reflexivity. Qed.
Lemma removelast_map {A B} (f : A -> B) l : removelast (map f l) = map f (removelast l).
Proof. induction l as [|a [|b l] IH]; [reflexivity|reflexivity|]. cbn [map removelast] in *. f_equal. exact IH. Qed.
Lemma last_map {A B} (f : A -> B) l d e : l <> [] -> last (map f l) e = f (last l d).
Proof. induction l as [|a [|b l] IH]; intros N; [contradiction|reflexivity|]. cbn [map last] in *. apply IH. discriminate. Qed.
Lemma weights_moved f l : nb_weights (map (moved f) l) = nb_weights l.
Proof.
  unfold nb_weights. rewrite flat_map_concat_map, map_map. cbn [moved snd]. rewrite <- flat_map_concat_map. f_equal. f_equal.
  destruct l as [|c l]; [reflexivity|]. rewrite (last_map _ _ ([], []) ([], [])) by discriminate. reflexivity.
Qed.
Lemma points_moved f l : chain_ok l -> nb_points (map (moved f) l) = map f (nb_points l).
Proof.
  intros [NE OK]. unfold nb_points. rewrite map_app. f_equal.
  - clear. induction l as [|c l IH]; [reflexivity|]. cbn [map flat_map moved fst]. rewrite map_app, removelast_map, IH. reflexivity.
  - cbn [map]. f_equal. rewrite (last_map _ _ ([], []) ([], [])) by exact NE. cbn [moved fst]. apply last_map.
    rewrite List.Forall_forall in OK. assert (I : In (last l ([], [])) l) by (rewrite (app_removelast_last ([], []) NE) at 2; apply in_or_app; right; left; reflexivity).
    destruct (OK _ I) as (L & _). intros E. rewrite E in L. cbn in L. lia.
Qed.

Section Uncrowned.
  Variables (sv : solver) (fs : fsolver) (ts : tsolver) (mid : profile -> R) (optC : curve -> arr2 -> arr1) (optS : arr3 -> arr1).
  Variables (h : hgear) (pitch : R) (nhz : nat).
  Hypothesis Hz : (2 <= nhz)%nat.
  Hypothesis CR : ip_crown (ig_in (h_gear h)) = 0.
  Hypothesis SM : exists cp, gear_section sv fs ts mid h 0 = Ok cp /\ regular_section cp (section_trf h 0) pitch.
  Let prof := section_at sv fs ts mid h.
  Let trf := section_trf h.

  Lemma section_all z : prof z = prof 0 /\ gear_section sv fs ts mid h z = Ok (prof 0) /\ regular_section (prof 0) (trf z) pitch.
  Proof.
    destruct SM as (cp & E & RS).
    assert (P0 : prof 0 = cp) by (unfold prof, section_at; rewrite E; reflexivity). pose proof (section_const _ _ _ _ _ _ z _ CR E) as EZ.
    split; [rewrite P0; unfold prof, section_at; rewrite EZ; reflexivity|]. rewrite P0. split; [exact EZ|].
    destruct RS as (A1 & A2 & A3 & A4 & A5 & _). repeat (split; [assumption|]). unfold trf, section_trf. cbn. repeat split; ring.
  Qed.

  Definition carries (m : list vec * list R) (s : vec * vec) : Prop :=
    hd ORIGIN (fst m) = fst s /\ last (fst m) ORIGIN = snd s /\ hd 0 (snd m) = 1 /\ last (snd m) 0 = 1.
  Lemma base_route : exists b, chain_ok b /\ joints b /\ length (nb_knots b) = (tooth_legs (prof 0) + 4)%nat /\
    (forall z, section_chain optC nhz 3 prof trf z = Ok (map (moved (place trf z)) b)) /\ Forall2 carries b (route (prof 0)).
  Proof.
    destruct (section_all 0) as (_ & _ & RS). destruct RS as (CV & EX & CN & RA & _).
    destruct (C57_profile_joined optC nhz 3 (fun q => q) (prof 0) Hz ltac:(lra) CV EX CN) as (l & EL & OK & JT & FL).
    exists (surface_members l). split; [exact OK|]. split; [exact JT|]. split.
    - pose proof (proj2 (C59_kept_iff optC nhz 3 (fun q => q) (prof 0) l Hz ltac:(lra) CV EX CN EL) RA) as LK.
      assert (KL : forall c k, length (knots_from k c) = S (length c)) by (induction c as [|x c IH]; intros k; cbn; [reflexivity|rewrite IH; reflexivity]).
      unfold nb_knots. rewrite KL.
      assert (1 <= tooth_legs (prof 0))%nat.
      { assert (FE : forall m, existsb (fun i => c_act (cv_curve i)) m = true -> (1 <= length (filter (fun i => c_act (cv_curve i)) m))%nat).
        { clear. induction m as [|x m IH]; cbn [existsb filter]; [discriminate|]. destruct (c_act (cv_curve x)); cbn [length orb]; [lia|exact IH]. }
        apply FE in EX. unfold tooth_legs. cbn [filter]. rewrite filter_app. destruct (c_act _); cbn [length]; rewrite app_length; lia. }
      lia.
    - split; [intros z; unfold section_chain, closed_members; destruct (section_all z) as (-> & _); rewrite closed_map, EL; cbn [bind]; rewrite members_map; reflexivity|].
      unfold surface_members. clear - FL. revert FL. generalize (filter nc_active l). intros a F.
      remember (map (image (fun q => q)) (route (prof 0))) as r eqn:E. revert E. generalize (route (prof 0)). induction F as [|c s a r H F IH]; intros [|s' r'] E; try discriminate; [constructor|].
      cbn [map] in *. injection E as -> E. constructor; [|apply IH, E]. destruct H as (_ & _ & H). exact H.
  Qed.
  Lemma base_chain : exists b, chain_ok b /\ joints b /\ length (nb_knots b) = (tooth_legs (prof 0) + 4)%nat /\
    forall z, section_chain optC nhz 3 prof trf z = Ok (map (moved (place trf z)) b).
  Proof. destruct base_route as (b & A & B & C & D & _). exists b. auto. Qed.
End Uncrowned.
Lemma toothed_section sv fs ts mid h n t : cyl_gear (h_gear h) n -> toothed sv fs ts (h_gear h) n 0 t ->
  exists cp, gear_section sv fs ts mid h 0 = Ok cp /\ regular_section cp (section_trf h 0) (2 * PI / IZR n).
Proof.
  intros CG [(rc & FL) FT RG TG _]. destruct (section_made sv fs ts mid h n 0 rc t CG FL FT RG TG) as (cp & E & RS & _). exists cp. auto.
Qed.

(** ** Walls *)
Lemma sum_lin f g h k l a b c d n : (forall i, (i <= n)%nat -> l i = a * f i + b * g i + c * h i + d * k i) ->
  sum_f_R0 l n = a * sum_f_R0 f n + b * sum_f_R0 g n + c * sum_f_R0 h n + d * sum_f_R0 k n.
Proof.
  intros H. induction n as [|n IH]; cbn [sum_f_R0].
  - rewrite H by lia. ring.
  - rewrite IH by (intros i I; apply H; lia). rewrite H by lia. ring.
Qed.
Lemma bez_lin t a b c d (P : list vec) (ws : list R) : length P = length ws -> ws <> [] ->
  bezierdc t (map (fun q => a * vx (fst q) + b * vy (fst q) + c * vz (fst q) + d * snd q) (combine P ws)) =
  a * bezierdc t (map vx P) + b * bezierdc t (map vy P) + c * bezierdc t (map vz P) + d * bezierdc t ws.
Proof.
  intros E N. destruct (len_S ws N) as [m D].
  assert (LM : length P = S m) by lia.
  rewrite (bezierdc_sum t _ m), (bezierdc_sum t (map vx P) m), (bezierdc_sum t (map vy P) m), (bezierdc_sum t (map vz P) m), (bezierdc_sum t ws m)
    by (rewrite ?map_length, ?combine_length; lia).
  apply sum_lin. intros i I.
  rewrite (nth_indep _ 0 ((fun q : vec * R => a * vx (fst q) + b * vy (fst q) + c * vz (fst q) + d * snd q) (ORIGIN, 0))) by (rewrite map_length, combine_length; lia).
  rewrite (map_nth (fun q : vec * R => a * vx (fst q) + b * vy (fst q) + c * vz (fst q) + d * snd q)), combine_nth by exact E. cbn [fst snd].
  assert (NX : nth i (map vx P) 0 = vx (nth i P ORIGIN)) by exact (map_nth vx P ORIGIN i).
  assert (NY : nth i (map vy P) 0 = vy (nth i P ORIGIN)) by exact (map_nth vy P ORIGIN i).
  assert (NZ : nth i (map vz P) 0 = vz (nth i P ORIGIN)) by exact (map_nth vz P ORIGIN i).
  rewrite NX, NY, NZ. ring.
Qed.
(** Affine maps of the control points. *)
Lemma nurbezier_affine t (B : mat) (c : vec) pts ws : length pts = length ws -> bezierdc t ws <> 0 -> ws <> [] ->
  nurbezier t (map (fun p => vadd (mapp B p) c) pts) ws = vadd (mapp B (nurbezier t pts ws)) c.
Proof.
  intros E W N. unfold nurbezier. set (b := bezierdc t ws) in *.
  assert (LW : length (wpoints pts ws) = length ws) by (rewrite wpoints_length by exact E; exact E).
  assert (N1 : wpoints pts ws <> []) by (intros Z; rewrite Z in LW; destruct ws; [contradiction|discriminate]).
  assert (N2 : wpoints (map (fun p => vadd (mapp B p) c) pts) ws <> []) by (destruct pts, ws; try contradiction; discriminate).
  rewrite !bezierdc_coords by assumption.
  assert (C : forall x y z d (f : vec -> R), (forall w p, f (smul w (vadd (mapp B p) c)) = x * vx (smul w p) + y * vy (smul w p) + z * vz (smul w p) + d * w) ->
    map f (wpoints (map (fun p => vadd (mapp B p) c) pts) ws) = map (fun q => x * vx (fst q) + y * vy (fst q) + z * vz (fst q) + d * snd q) (combine (wpoints pts ws) ws)).
  { intros x y z d f H. clear - E H. revert ws E. induction pts as [|p pts IH]; intros [|w ws] E; try reflexivity; try discriminate.
    cbn [map wpoints combine fst snd]. rewrite H, IH by (cbn in E; lia). reflexivity. }
  rewrite (C (m11 B) (m12 B) (m13 B) (vx c) vx), (C (m21 B) (m22 B) (m23 B) (vy c) vy), (C (m31 B) (m32 B) (m33 B) (vz c) vz)
    by (intros w p; destruct B, p, c; vec_simpl; ring).
  rewrite !bez_lin by assumption. fold b. generalize (bezierdc t (map vx (wpoints pts ws))) (bezierdc t (map vy (wpoints pts ws))) (bezierdc t (map vz (wpoints pts ws))).
  clear - W. intros x y z. destruct B, c. apply vec_eq; vec_simpl; field; exact W.
Qed.
(** A wall: two equal rows, one above the other. *)
Lemma wall_surface u v row ws (d : vec) : length row = length ws -> ws <> [] -> bezier v ws <> 0 ->
  nurbezier_surface u v [row; map (vadd d) row] [ws; ws] = vadd (nurbezier v row ws) (smul u d).
Proof.
  intros E N W. unfold nurbezier_surface. cbn [combine map fst snd].
  assert (W' : bezierdc v ws <> 0) by (rewrite C15_decasteljau_is_bernstein_weights by exact N; exact W).
  assert (M : map (vadd d) row = map (fun p => vadd (mapp UNIT3X3 p) d) row) by (apply map_ext; intros p; rewrite mapp_I; destruct p, d; vec_ring).
  rewrite M, nurbezier_affine by assumption. rewrite mapp_I.
  change [bezier v ws; bezier v ws] with (repeat (bezier v ws) (length [nurbezier v row ws; vadd (nurbezier v row ws) d])).
  rewrite C17_equal_weights by (try exact W; discriminate). unfold bezierdc. cbn. unfold lerp2. cbn [ladd lsc Lin_vec].
  destruct (nurbezier v row ws), d. apply vec_eq; vec_simpl; ring.
Qed.

(** The land between two points at the same distance from the axis becomes an exact arc about the axis. *)
Lemma land_converted opt k samp a b : vz a = vz b -> axis_dist a = axis_dist b -> vx a * vy b - vy a * vx b <> 0 ->
  let c := convert_curve opt k samp (CPlain (from_2_point_center a b (axis_center a b) 0 true)) in
  nc_active c = true /\ length (nc_points c) = length (nc_weights c) /\ nc_weights c <> [] /\
  nurbezier 0 (nc_points c) (nc_weights c) = a /\ nurbezier 1 (nc_points c) (nc_weights c) = b /\
  forall v, bezier v (nc_weights c) <> 0 /\ axis_dist (nurbezier v (nc_points c) (nc_weights c)) = axis_dist a /\
    vz (nurbezier v (nc_points c) (nc_weights c)) = vz a.
Proof.
  intros Z N C c.
  assert (NQ : vx a * vx a + vy a * vy a = vx b * vx b + vy b * vy b).
  { unfold axis_dist in N. apply sqrt_inj in N; [exact N| |]; match goal with |- 0 <= ?x * ?x + ?y * ?y => pose proof (Rle_0_sqr x); pose proof (Rle_0_sqr y); unfold Rsqr in *; lra end. }
  destruct (axis_arc a b Z NQ C) as (_ & AC & _ & E0 & E1 & _). set (ce := axis_center a b) in *.
  assert (CE : ce = V 0 0 (vz a)) by (unfold ce, axis_center; apply vec_eq; cbn; lra).
  assert (CR : cross (vsub a ce) (vsub b ce) <> ORIGIN).
  { intros E. apply C. apply (f_equal vz) in E. revert E. rewrite CE. destruct a, b. vec_simpl. intros. lra. }
  assert (NA : forall q, vz q = vz a -> norm (vsub q ce) = axis_dist q).
  { intros q Q. rewrite CE. unfold norm, axis_dist. f_equal. destruct q. cbn in Q. subst. vec_simpl. ring. }
  set (r := axis_dist a). assert (R0 : 0 < r).
  { unfold r, axis_dist. apply sqrt_lt_R0. pose proof (Rle_0_sqr (vx a)). pose proof (Rle_0_sqr (vy a)). unfold Rsqr in *.
    destruct (Req_dec (vx a) 0) as [X|X]; [destruct (Req_dec (vy a) 0) as [Y|Y]|].
    - exfalso. apply C. rewrite X, Y. ring.
    - pose proof (Rsqr_pos_lt _ Y). unfold Rsqr in *. lra.
    - pose proof (Rsqr_pos_lt _ X). unfold Rsqr in *. lra. }
  assert (SH : c_shape (from_2_point_center a b ce 0 true) =
    SArc (norm (vsub a ce)) (angle_between (vsub a ce) (vsub b ce) + 2 * 0 * PI) ce (of_cols (normalize (vsub a ce)) (cross (normalize (cross (vsub a ce) (vsub b ce))) (normalize (vsub a ce))) (normalize (cross (vsub a ce) (vsub b ce))))).
  { unfold from_2_point_center. rewrite arc_frame_shape by (apply two_point_frame; exact CR). rewrite arc_new_shape. f_equal. ring. }
  assert (AL : Rabs (angle_between (vsub a ce) (vsub b ce) + 2 * 0 * PI) < PI).
  { pose proof (C14_angle_range (vsub a ce) (vsub b ce)) as RG. destruct (C14_angle_cos_sin (vsub a ce) (vsub b ce)) as [_ SN].
    set (th := angle_between _ _) in *. replace (th + 2 * 0 * PI) with th by ring. rewrite Rabs_right by lra.
    destruct (Req_dec th PI) as [E|E]; [|lra]. exfalso. rewrite E, sin_PI, Rmult_0_r in SN. apply CR. apply norm_zero. symmetry. exact SN. }
  assert (K : c = let '(p, w) := calc_nurbezier_arc a b ce in mkNC p w true).
  { unfold c. cbn [convert_curve]. rewrite SH. destruct (Rlt_dec _ PI) as [_|X]; [|contradiction]. rewrite E0, E1, AC. reflexivity. }
  assert (NS : vadd (vsub a ce) (vsub b ce) <> ORIGIN).
  { intros E. apply C. rewrite CE in E. pose proof (f_equal vx E) as EX. pose proof (f_equal vy E) as EY. revert EX EY. destruct a, b. vec_simpl. intros.
    assert (X : vx0 = - vx) by lra. assert (Y : vy0 = - vy) by lra. rewrite X, Y. ring. }
  assert (NB : norm (vsub b ce) = r) by (rewrite NA by congruence; unfold r; congruence).
  assert (Q : forall v, let (pts, ws) := calc_nurbezier_arc a b ce in
    norm (vsub (nurbezier v pts ws) ce) = r /\ nurbezier 0 pts ws = a /\ nurbezier 1 pts ws = b /\
    exists al be, vsub (nurbezier v pts ws) ce = vadd (smul al (vsub a ce)) (smul be (vsub b ce)) /\ (0 <= v <= 1 -> 0 <= al /\ 0 <= be)).
  { intros v. apply C20_arc_exact; [exact R0|apply NA; reflexivity|exact NB|exact NS]. }
  rewrite K. clear K c. assert (WN : forall pts ws, calc_nurbezier_arc a b ce = (pts, ws) -> length pts = length ws /\ ws <> []).
  { unfold calc_nurbezier_arc. intros pts ws E. injection E as <- <-. split; [reflexivity|discriminate]. }
  destruct (calc_nurbezier_arc a b ce) as [pts ws] eqn:EK. cbn [nc_active nc_points nc_weights]. destruct (WN _ _ eq_refl) as [WL WE].
  split; [reflexivity|]. split; [exact WL|]. split; [exact WE|]. split; [apply (Q 0)|]. split; [apply (Q 0)|]. intros v. destruct (Q v) as (D & _ & _ & al & be & E & _).
  assert (VZ : vz (nurbezier v pts ws) = vz a).
  { apply (f_equal vz) in E. revert E. rewrite CE. destruct (nurbezier v pts ws), a, b. cbn in Z. subst. vec_simpl. intros. lra. }
  assert (AD : axis_dist (nurbezier v pts ws) = r) by (rewrite <- D; symmetry; apply NA; exact VZ).
  split; [|split; [exact AD|exact VZ]]. intros B. unfold nurbezier in AD. rewrite C15_decasteljau_is_bernstein_weights, B, Rinv_0 in AD by exact WE.
  assert (AO : axis_dist (smul 0 (bezierdc v (wpoints pts ws))) = 0).
  { unfold axis_dist. destruct (bezierdc v (wpoints pts ws)). vec_simpl. replace (0 * vx * (0 * vx) + 0 * vy * (0 * vy)) with 0 by ring. apply sqrt_0. }
  lra.
Qed.

(** ** The part of a gear without crowning *)
Section Body.
  Variables (sv : solver) (fs : fsolver) (ts : tsolver) (mid : profile -> R) (optC : curve -> arr2 -> arr1) (optS : arr3 -> arr1).
  Variables (h : hgear) (n : Z) (nhz nv : nat) (t : node).
  Hypothesis CG : cyl_gear (h_gear h) n.
  Hypothesis Hz : (2 <= nhz)%nat.
  Hypothesis Hv : (2 <= nv)%nat.
  Hypothesis CR : ip_crown (ig_in (h_gear h)) = 0.
  Hypothesis TD : toothed sv fs ts (h_gear h) n 0 t.
  Let prof := section_at sv fs ts mid h.
  Let trf := section_trf h.
  Let zs := k_zvals (ig_core (h_gear h)).
  Let tw := n_z_tweens nv 3.
  Hypothesis LZ : (2 <= length zs)%nat.

  Lemma uncrowned : tw = 2%nat \/ (forall hs, In hs (z_stacks zs tw) -> let st := map (chain_at optC nhz 3 prof trf) hs in
      converged (stack_target st) tw (length (nb_points (chain_at optC nhz 3 prof trf 0))) nv (optS (stack_target st))) ->
    exists c, build_gear sv fs ts mid optC optS h nhz nv = Ok c /\ paired (all_edges c) /\
      length (cy_sides c) = (Z.to_nat n * ((length zs - 1) * tooth_legs (prof 0)))%nat.
  Proof.
    intros HC. destruct (base_chain sv fs ts mid optC h (2 * PI / IZR n) nhz Hz CR (toothed_section _ _ _ _ _ _ _ CG TD)) as (b & OK & JT & LK & SC). fold prof trf in SC, LK.
    assert (KN : forall z, nb_knots (map (moved (place trf z)) b) = nb_knots b) by (intros z; apply knots_moved).
    assert (LN : S (last (nb_knots b) 0%nat) = length (nb_points (chain_at optC nhz 3 prof trf 0))).
    { unfold chain_at. rewrite SC, points_moved, map_length by exact OK.
      destruct (C40_knots b OK) as (r & ER & LR & AR). destruct (weights_length b OK) as [_ L1].
      rewrite ER. rewrite <- (ascending_last r 0 _ AR). lia. }
    destruct (C116_closed sv fs ts mid optC optS h n nhz nv (nb_knots b) CG Hz Hv LZ) as (c & EB & PA & LC).
    - intros z _. split; [exists t; apply (toothed_const _ _ _ _ _ 0); assumption|].
      intros c E. fold prof trf in E. rewrite SC in E. apply Ok_inj in E. rewrite <- E. apply KN.
    - fold zs tw prof trf. destruct HC as [HC|HC]; [left; exact HC|right]. intros hs I. rewrite LN. apply HC, I.
    - exists c. split; [exact EB|]. split; [exact PA|]. rewrite LC, LK. fold zs. f_equal. f_equal. lia.
  Qed.
End Body.

(** A gear without crowning, helical or not, built with any number of layers. *)
Theorem C116_uncrowned sv fs ts mid optC optS h n nhz nv t :
  cyl_gear (h_gear h) n -> (2 <= nhz)%nat -> (2 <= nv)%nat -> ip_crown (ig_in (h_gear h)) = 0 ->
  toothed sv fs ts (h_gear h) n 0 t ->
  let zs := k_zvals (ig_core (h_gear h)) in let tw := n_z_tweens nv 3 in
  let prof := section_at sv fs ts mid h in let trf := section_trf h in
  (2 <= length zs)%nat ->
  tw = 2%nat \/ (forall hs, In hs (z_stacks zs tw) -> let st := map (chain_at optC nhz 3 prof trf) hs in
    converged (stack_target st) tw (length (nb_points (chain_at optC nhz 3 prof trf 0))) nv (optS (stack_target st))) ->
  exists c, build_gear sv fs ts mid optC optS h nhz nv = Ok c /\ paired (all_edges c) /\
    length (cy_sides c) = (Z.to_nat n * ((length zs - 1) * (2 * (1 + length (leaves t)))))%nat.
Proof.
  intros CG Hz Hv CR TD zs tw prof trf LZ HC.
  destruct (uncrowned sv fs ts mid optC optS h n nhz nv t CG Hz Hv CR TD LZ HC) as (c & EB & PA & LC).
  exists c. split; [exact EB|]. split; [exact PA|]. rewrite LC. fold zs. do 2 f_equal.
  destruct TD as [(rc & FL) FT RG TG _]. destruct (section_made sv fs ts mid h n 0 rc t CG FL FT RG TG) as (cp & E & _ & _ & RD & RA & TO).
  assert (P0 : section_at sv fs ts mid h 0 = cp) by (unfold section_at; rewrite E; reflexivity). rewrite P0. cbv zeta in RD, RA.
  unfold tooth_legs. rewrite RD, RA, TO. rewrite (proj1 FT). set (cs := get_curves t).
  assert (AC : forall a b, c_act (from_2_point_center a b (axis_center a b) 0 true) = true).
  { intros a b. unfold from_2_point_center, arc_from_frame. destruct (as_euler_zyx _) as [[? ?] ?]. reflexivity. }
  assert (FM : length (filter (fun i => c_act (cv_curve i)) (map CPlain cs)) = length (filter c_act cs)).
  { clear. induction cs as [|x cs IH]; [reflexivity|]. cbn [map filter cv_curve]. destruct (c_act x); cbn [length]; rewrite IH; reflexivity. }
  cbn [filter cv_curve]. rewrite filter_app. cbn [filter cv_curve]. rewrite !AC. cbn [length]. rewrite app_length. cbn [length]. rewrite FM. lia.
Qed.

Lemma two_layers h : ip_crown (ig_in (h_gear h)) = 0 -> ip_helix (ig_in (h_gear h)) = 0 -> default_layers h = 2%nat /\ n_z_tweens 2 3 = 2%nat.
Proof.
  intros C H. split.
  - unfold default_layers, n_vert_involute. rewrite C, H. destruct (Req_EM_T 0 0); [reflexivity|contradiction].
  - unfold n_z_tweens. replace ((INR 2 - 2) * 3) with (IZR 0) by (cbn; ring). unfold ceilZ. rewrite <- opp_IZR, floorZ_IZR. reflexivity.
Qed.

(** [build_part()] of a gear with straight teeth: the sections are joined directly, no fitting of surfaces is involved. *)
Theorem C116_spur sv fs ts mid optC optS h n t :
  cyl_gear (h_gear h) n -> ip_crown (ig_in (h_gear h)) = 0 -> ip_helix (ig_in (h_gear h)) = 0 ->
  (2 <= length (k_zvals (ig_core (h_gear h))))%nat -> toothed sv fs ts (h_gear h) n 0 t ->
  exists c, build_part sv fs ts mid optC optS h = Ok c /\ paired (all_edges c) /\
    length (cy_sides c) = (Z.to_nat n * ((length (k_zvals (ig_core (h_gear h))) - 1) * (2 * (1 + length (leaves t)))))%nat.
Proof.
  intros CG CR HX LZ TD. destruct (two_layers h CR HX) as [DL TW]. unfold build_part. rewrite DL.
  apply C116_uncrowned; try assumption; try lia.
Qed.

Definition rise (d : R) : vec -> vec := vadd (V 0 0 d).
Definition wall (z0 z1 : R) (m : list vec * list R) : face := ([map (rise z0) (fst m); map (rise z1) (fst m)], [snd m; snd m]).

Lemma wall_patches f0 f1 P W K : get_patches [map f0 P; map f1 P] [W; W] K =
  map (fun m : list vec * list R => ([map f0 (fst m); map f1 (fst m)], [snd m; snd m])) (nb_from_points P W K).
Proof.
  assert (SL : forall (f : vec -> vec) i j, slice (map f P) i j = map f (slice P i j)) by (intros f i j; unfold slice; rewrite skipn_map, firstn_map; reflexivity).
  induction K as [|a [|b K] IH]; [reflexivity|reflexivity|].
  change (get_patches [map f0 P; map f1 P] [W; W] (a :: b :: K)) with
    ((map (fun row => slice row a (b + 1)) [map f0 P; map f1 P], map (fun row => slice row a (b + 1)) [W; W]) :: get_patches [map f0 P; map f1 P] [W; W] (b :: K)).
  rewrite IH. change (nb_from_points P W (a :: b :: K)) with ((slice P a (b + 1), slice W a (b + 1)) :: nb_from_points P W (b :: K)).
  cbn [map fst snd]. rewrite !SL. reflexivity.
Qed.

Section Straight.
  Variables (sv : solver) (fs : fsolver) (ts : tsolver) (mid : profile -> R) (optC : curve -> arr2 -> arr1) (optS : arr3 -> arr1).
  Variables (h : hgear) (n : Z) (z0 z1 : R) (t : node) (c : cylinder).
  Hypothesis CG : cyl_gear (h_gear h) n.
  Hypothesis CR : ip_crown (ig_in (h_gear h)) = 0.
  Hypothesis HX : ip_helix (ig_in (h_gear h)) = 0.
  Hypothesis AN : forall z, h_angle h z = 0.
  Hypothesis EZ : k_zvals (ig_core (h_gear h)) = [z0; z1].
  Hypothesis TD : toothed sv fs ts (h_gear h) n 0 t.
  Hypothesis EB : build_part sv fs ts mid optC optS h = Ok c.
  Let prof := section_at sv fs ts mid h.
  Let trf := section_trf h.
  Let pitch := 2 * PI / IZR n.

  Lemma place_rise z q : place trf z q = rise z q.
  Proof.
    unfold place. rewrite apply_gear_transform_eq. unfold trf, section_trf. cbn [g_orient g_angle g_scale g_center k_slice]. rewrite mapp_I, AN.
    assert (N1 : 1 <= IZR n) by (apply IZR_le; pose proof (cg_n _ _ CG); lia).
    rewrite (cg_gamma _ _ CG), (cg_num _ _ CG), sin_0, cos_0. unfold rotz, rise. rewrite cos_0, sin_0. destruct q. apply vec_eq; vec_simpl; field; lra.
  Qed.

  (** All side faces, tooth by tooth. *)
  Lemma straight_sides : exists b, (forall m, In m b -> member_ok m) /\
    cy_sides c = flat_map (fun j => map (fun m => turn_face (pitch * INR j * 180 / PI) (wall z0 z1 m)) b) (seq 0 (Z.to_nat n)) /\
    In (nc_pair (convert_curve optC 4 (3 / 2) (cp_rd (prof 0)))) b /\ In (nc_pair (convert_curve optC 4 (3 / 2) (cp_ra (prof 0)))) b.
  Proof.
    destruct (two_layers h CR HX) as [DL TW].
    destruct (base_chain sv fs ts mid optC h pitch 4 ltac:(lia) CR (toothed_section _ _ _ _ _ _ _ CG TD)) as (b & OK & JT & LK & SC). fold prof trf in SC, LK.
    pose proof (section_all sv fs ts mid h pitch CR (toothed_section _ _ _ _ _ _ _ CG TD)) as SA. cbv zeta in SA. fold prof trf pitch in SA.
    revert EB. unfold build_part, build_gear. rewrite DL, EZ. destruct (res_map _ _) as [?|]; cbn [bind]; [|discriminate].
    fold prof trf. rewrite (cg_act _ _ CG), (cg_num _ _ CG). unfold tp_pitch_angle. rewrite (cg_num _ _ CG). fold pitch.
    unfold build_cylinder, side_surf_data. rewrite TW. unfold z_stacks. cbn [length Nat.sub seq map nth].
    assert (LI : linspace z0 z1 2 = [z0; z1]).
    { unfold linspace. cbn [seq map Nat.sub]. f_equal; [cbn; ring|]. f_equal. cbn. field. }
    rewrite LI. cbn [res_map]. rewrite !SC. cbn [bind]. unfold side_surface. rewrite TW. cbn [Nat.eqb]. unfold side_surface_two_layers. cbn [map equal_lengths forallb].
    rewrite !points_moved, !map_length, Nat.eqb_refl by exact OK. cbn [andb bind hd last].
    rewrite !weights_moved. unfold nb_knots at 1. rewrite knots_moved. fold (nb_knots b).
    destruct (generate_cover _ _ _ _ _ _ _ _ _ _ z0) as [bot|]; cbn [bind]; [|discriminate].
    destruct (generate_cover _ _ _ _ _ _ _ _ _ _ z1) as [top|]; cbn [bind]; [|discriminate].
    intros E. apply Ok_inj in E. exists (firstn (length b - 3) b). split; [|split].
    - intros m I. assert (F : List.Forall member_ok b) by apply OK. rewrite List.Forall_forall in F. apply F. rewrite <- (firstn_skipn (length b - 3) b). apply in_or_app. left. exact I.
    - rewrite <- E. cbn [cy_sides]. unfold side_face_list. cbn [length Nat.sub seq flat_map nth]. apply flat_map_ext. intros j. rewrite app_nil_r.
      rewrite wall_patches, (C40_read_split b OK JT). unfold kept. rewrite map_length, firstn_map, map_map. apply map_ext. intros m. unfold wall. f_equal. f_equal.
      f_equal; [|f_equal]; apply map_ext; intros q; apply place_rise.
    - destruct (SA 0) as (_ & _ & RS).
      destruct (section_facts optC 4 3 prof trf pitch ltac:(lia) ltac:(lra) 0 RS) as (c0 & l & EC & _ & _ & _ & EO & EF & _).
      rewrite SC in EC. apply Ok_inj in EC. rewrite <- EC, map_length, firstn_map in EF.
      unfold open_members in EO. destruct (tooth_mirror _) as [mir|]; cbn [bind] in EO; [|discriminate]. apply Ok_inj in EO. rewrite <- EO in EF. clear EO.
      assert (INV : forall m, In (moved (place trf 0) m) (map (moved (place trf 0)) (firstn (length b - 3) b)) -> In m (firstn (length b - 3) b)).
      { intros m I. apply in_map_iff in I. destruct I as (m' & E' & I). replace m with m'; [exact I|]. clear - E' AN CG trf. destruct m as [p w], m' as [p' w'].
        unfold moved in E'. cbn [fst snd] in E'. injection E' as EP ->. f_equal.
        assert (ID : forall q, place trf 0 q = q) by (intros q; rewrite place_rise; unfold rise; destruct q; apply vec_eq; vec_simpl; ring).
        rewrite !(map_ext _ (fun q => q) ID), !map_id in EP. exact EP. }
      assert (ACT : forall i, nc_active (convert_curve optC 4 (3 / 2) i) = true -> In (nc_transform (place trf 0) (convert_curve optC 4 (3 / 2) i))
        (nc_transform (place trf 0) (convert_curve optC 4 (3 / 2) (cp_rd (prof 0))) :: map (nc_transform (place trf 0)) (convert_list optC 4 3 true (cp_tooth (prof 0))) ++
         nc_transform (place trf 0) (convert_curve optC 4 (3 / 2) (cp_ra (prof 0))) :: map (nc_transform (place trf 0)) mir) ->
        In (nc_pair (convert_curve optC 4 (3 / 2) i)) (firstn (length b - 3) b)).
      { intros i A I. apply INV. rewrite <- EF. change (moved (place trf 0) (nc_pair (convert_curve optC 4 (3 / 2) i))) with (nc_pair (nc_transform (place trf 0) (convert_curve optC 4 (3 / 2) i))).
        apply in_map. apply filter_In. split; [exact I|exact A]. }
      destruct TD as [(rc & FL) FT RG TG _]. destruct (section_made sv fs ts mid h n 0 rc t CG FL FT RG TG) as (cp & ES & _ & _ & RD & RA & _).
      assert (P0 : prof 0 = cp) by (unfold prof, section_at; rewrite ES; reflexivity). cbv zeta in RD, RA. rewrite <- P0 in RD, RA.
      pose proof (fl_ends _ _ _ _ _ _ _ FL) as NO. rewrite (cg_teeth _ _ CG) in NO. destruct NO as [NT NR].
      split; apply ACT.
      + rewrite RD. apply land_converted; [reflexivity|rewrite axis_dist_turn; apply axis_dist_flip|].
        apply root_cross; [eapply Rlt_trans; [|exact RG]; lra|exact NR].
      + left. reflexivity.
      + rewrite RA. apply land_converted; [reflexivity|symmetry; apply axis_dist_flip|].
        apply tip_cross; [eapply Rlt_trans; [|exact TG]; lra|exact NT].
      + right. apply in_or_app. right. left. reflexivity.
  Qed.

  Lemma turned_wall j m : turn_face (pitch * INR j * 180 / PI) (wall z0 z1 m) =
    ([map (fun q => vadd (mapp (rotz (INR j * pitch)) q) (V 0 0 z0)) (fst m);
      map (rise (z1 - z0)) (map (fun q => vadd (mapp (rotz (INR j * pitch)) q) (V 0 0 z0)) (fst m))], [snd m; snd m]).
  Proof.
    unfold turn_face, wall. cbn [fst snd map]. pose proof PI_RGT_0.
    assert (E : to_rad (pitch * INR j * 180 / PI) = INR j * pitch) by (unfold to_rad; field; lra). rewrite E.
    f_equal. f_equal; [|f_equal]; rewrite !map_map; apply map_ext; intros q; unfold rise, rotz; destruct q; apply vec_eq; vec_simpl; ring.
  Qed.

  (** A land of tooth [j]. *)
  Lemma land_face j a b : (j < Z.to_nat n)%nat -> vz a = vz b -> axis_dist a = axis_dist b -> vx a * vy b - vy a * vx b <> 0 ->
    forall bs, cy_sides c = flat_map (fun j => map (fun m => turn_face (pitch * INR j * 180 / PI) (wall z0 z1 m)) bs) (seq 0 (Z.to_nat n)) ->
    In (nc_pair (convert_curve optC 4 (3 / 2) (CPlain (from_2_point_center a b (axis_center a b) 0 true)))) bs ->
    exists f, In f (cy_sides c) /\
      nurbezier_surface 0 0 (fst f) (snd f) = vadd (turn (INR j * pitch) a) (V 0 0 z0) /\
      nurbezier_surface 0 1 (fst f) (snd f) = vadd (turn (INR j * pitch) b) (V 0 0 z0) /\
      forall u v, axis_dist (nurbezier_surface u v (fst f) (snd f)) = axis_dist a /\
        vz (nurbezier_surface u v (fst f) (snd f)) = vz a + z0 + u * (z1 - z0).
  Proof.
    intros J Z N C bs ES I. set (m := nc_pair _) in I. exists (turn_face (pitch * INR j * 180 / PI) (wall z0 z1 m)). split.
    - rewrite ES. apply in_flat_map. exists j. split; [apply in_seq; lia|]. apply in_map_iff. exists m. auto.
    - destruct (land_converted optC 4 (3 / 2) a b Z N C) as (_ & WL & WN & E0 & E1 & AL).
      rewrite turned_wall. cbn [fst snd]. change (fst m) with (nc_points (convert_curve optC 4 (3 / 2) (CPlain (from_2_point_center a b (axis_center a b) 0 true)))).
      change (snd m) with (nc_weights (convert_curve optC 4 (3 / 2) (CPlain (from_2_point_center a b (axis_center a b) 0 true)))).
      set (k := convert_curve _ _ _ _) in *.
      assert (SF : forall u v, nurbezier_surface u v [map (fun q => vadd (mapp (rotz (INR j * pitch)) q) (V 0 0 z0)) (nc_points k);
          map (rise (z1 - z0)) (map (fun q => vadd (mapp (rotz (INR j * pitch)) q) (V 0 0 z0)) (nc_points k))] [nc_weights k; nc_weights k] =
        vadd (vadd (turn (INR j * pitch) (nurbezier v (nc_points k) (nc_weights k))) (V 0 0 z0)) (V 0 0 (u * (z1 - z0)))).
      { intros u v. destruct (AL v) as (B & _). unfold rise. rewrite wall_surface by (try exact WN; try exact B; rewrite map_length; exact WL).
        rewrite nurbezier_affine; [|exact WL|rewrite C15_decasteljau_is_bernstein_weights by exact WN; exact B|exact WN].
        rewrite <- turn_rotz. f_equal. apply vec_eq; vec_simpl; ring. }
      rewrite !SF, E0, E1. split; [|split].
      + apply vec_eq; vec_simpl; ring.
      + apply vec_eq; vec_simpl; ring.
      + intros u v. rewrite SF. destruct (AL v) as (_ & AD & VZ). split.
        * etransitivity; [|exact AD]. etransitivity; [|apply (axis_dist_turn (INR j * pitch))]. unfold axis_dist. f_equal. cbn [vx vy vadd]. ring.
        * cbn [vz vadd turn]. rewrite VZ. ring.
  Qed.

  Lemma straight_lands j : (j < Z.to_nat n)%nat -> let P0 := n_point t 0 in let P1 := n_point t 1 in
    (exists f, In f (cy_sides c) /\
      nurbezier_surface 0 0 (fst f) (snd f) = vadd (turn ((INR j - 1) * pitch) (flip P0)) (V 0 0 z0) /\
      nurbezier_surface 0 1 (fst f) (snd f) = vadd (turn (INR j * pitch) P0) (V 0 0 z0) /\
      forall u v, axis_dist (nurbezier_surface u v (fst f) (snd f)) = axis_dist P0 /\
        vz (nurbezier_surface u v (fst f) (snd f)) = vz P0 + z0 + u * (z1 - z0)) /\
    (exists f, In f (cy_sides c) /\
      nurbezier_surface 0 0 (fst f) (snd f) = vadd (turn (INR j * pitch) P1) (V 0 0 z0) /\
      nurbezier_surface 0 1 (fst f) (snd f) = vadd (turn (INR j * pitch) (flip P1)) (V 0 0 z0) /\
      forall u v, axis_dist (nurbezier_surface u v (fst f) (snd f)) = axis_dist P1 /\
        vz (nurbezier_surface u v (fst f) (snd f)) = vz P1 + z0 + u * (z1 - z0)).
  Proof.
    intros J P0 P1. destruct straight_sides as (bs & _ & ES & IR & IA).
    pose proof TD as [(rc & FL) FT RG TG _]. destruct (section_made sv fs ts mid h n 0 rc t CG FL FT RG TG) as (cp & EC & _ & _ & RD & RA & _).
    assert (PE : prof 0 = cp) by (unfold prof, section_at; rewrite EC; reflexivity). cbv zeta in RD, RA. rewrite PE, RD in IR. rewrite PE, RA in IA.
    pose proof (fl_ends _ _ _ _ _ _ _ FL) as NO. rewrite (cg_teeth _ _ CG) in NO. destruct NO as [NT NR]. split.
    - destruct (land_face j (turn (- pitch) (flip P0)) P0 J) with (bs := bs) as (f & I & A & B & D); try assumption.
      + reflexivity.
      + rewrite axis_dist_turn. apply axis_dist_flip.
      + apply root_cross; [eapply Rlt_trans; [|exact RG]; lra|exact NR].
      + exists f. split; [exact I|]. split; [rewrite A, turn_turn; do 2 f_equal; ring|]. split; [exact B|].
        intros u v. rewrite (proj1 (D u v)), (proj2 (D u v)), axis_dist_turn, axis_dist_flip. auto.
    - destruct (land_face j P1 (flip P1) J) with (bs := bs) as (f & I & A & B & D); try assumption.
      + reflexivity.
      + symmetry. apply axis_dist_flip.
      + apply tip_cross; [eapply Rlt_trans; [|exact TG]; lra|exact NT].
      + exists f. auto.
  Qed.
End Straight.

(** The walls of such a part are parallel to the axis: the upper row of control points is the lower one raised by the height, with the
    same weights, so a line parallel to the axis runs through each point of a wall. *)
Theorem C116_walls sv fs ts mid optC optS h n z0 z1 t c :
  cyl_gear (h_gear h) n -> ip_crown (ig_in (h_gear h)) = 0 -> ip_helix (ig_in (h_gear h)) = 0 -> (forall z, h_angle h z = 0) ->
  k_zvals (ig_core (h_gear h)) = [z0; z1] -> toothed sv fs ts (h_gear h) n 0 t ->
  build_part sv fs ts mid optC optS h = Ok c ->
  forall f, In f (cy_sides c) -> exists row ws, f = ([row; map (vadd (V 0 0 (z1 - z0))) row], [ws; ws]) /\
    forall u v, bezier v ws <> 0 -> nurbezier_surface u v (fst f) (snd f) = vadd (nurbezier v row ws) (V 0 0 (u * (z1 - z0))).
Proof.
  intros CG CR HX AN EZ TD EB f I.
  destruct (straight_sides sv fs ts mid optC optS h n z0 z1 t c CG CR HX AN EZ TD EB) as (bs & OK & ES & _).
  rewrite ES in I. apply in_flat_map in I. destruct I as (j & _ & I). apply in_map_iff in I. destruct I as (m & <- & I).
  destruct (OK m I) as [L2 LW]. rewrite turned_wall. eexists. eexists. split; [reflexivity|]. intros u v B. cbn [fst snd]. unfold rise.
  rewrite wall_surface; [|rewrite map_length; symmetry; exact LW| |exact B].
  - f_equal. apply vec_eq; vec_simpl; ring.
  - intros E. rewrite E in LW. cbn in LW. lia.
Qed.

(** The bottoms of the tooth gaps and the tops of the teeth are pieces of cylinders about the axis: there is one of each for every
    tooth, from the flank of the tooth before (the mirrored flank of the tooth) to the flank (the mirrored flank). *)
Theorem C116_lands sv fs ts mid optC optS h n z0 z1 t c :
  cyl_gear (h_gear h) n -> ip_crown (ig_in (h_gear h)) = 0 -> ip_helix (ig_in (h_gear h)) = 0 -> (forall z, h_angle h z = 0) ->
  k_zvals (ig_core (h_gear h)) = [z0; z1] -> toothed sv fs ts (h_gear h) n 0 t ->
  build_part sv fs ts mid optC optS h = Ok c ->
  forall j, (j < Z.to_nat n)%nat -> let pitch := 2 * PI / IZR n in let P0 := n_point t 0 in let P1 := n_point t 1 in
    (exists f, In f (cy_sides c) /\
      nurbezier_surface 0 0 (fst f) (snd f) = vadd (turn ((INR j - 1) * pitch) (flip P0)) (V 0 0 z0) /\
      nurbezier_surface 0 1 (fst f) (snd f) = vadd (turn (INR j * pitch) P0) (V 0 0 z0) /\
      forall u v, axis_dist (nurbezier_surface u v (fst f) (snd f)) = axis_dist P0 /\
        vz (nurbezier_surface u v (fst f) (snd f)) = vz P0 + z0 + u * (z1 - z0)) /\
    (exists f, In f (cy_sides c) /\
      nurbezier_surface 0 0 (fst f) (snd f) = vadd (turn (INR j * pitch) P1) (V 0 0 z0) /\
      nurbezier_surface 0 1 (fst f) (snd f) = vadd (turn (INR j * pitch) (flip P1)) (V 0 0 z0) /\
      forall u v, axis_dist (nurbezier_surface u v (fst f) (snd f)) = axis_dist P1 /\
        vz (nurbezier_surface u v (fst f) (snd f)) = vz P1 + z0 + u * (z1 - z0)).
Proof. intros CG CR HX AN EZ TD EB j J. exact (straight_lands sv fs ts mid optC optS h n z0 z1 t c CG CR HX AN EZ TD EB j J). Qed.

(** ** Which gears these are *)
Theorem C116_kinds p n : ip_teeth p = IZR n -> (0 < n)%Z ->
  (ip_cone p = 0 -> cyl_gear (ig_new p) n) /\
  (ip_cone p = 0 -> forall orc, cyl_gear (spur_ring_new p orc) n) /\
  (forall hb, cyl_gear (h_gear (helical_new p hb)) n) /\
  (forall hb, cyl_gear (h_gear (helical_ring_new p hb)) n).
Proof.
  intros T N. assert (P : 0 < ip_teeth p) by (rewrite T; apply IZR_lt; exact N).
  assert (G0 : 0 / 2 = 0) by field.
  assert (NM : forall q, ip_teeth q = ip_teeth p -> ip_normalise q = q) by (intros q E; unfold ip_normalise; rewrite E; destruct (Rlt_dec _ 0); [lra|reflexivity]).
  assert (TP : forall i, tp_make (IZR n) 0 i = mkTP (IZR n) 0 i) by (intros i; rewrite <- T; apply tp_make_pos; lra).
  split; [|split; [|split]].
  - intros CN. unfold ig_new. rewrite NM by reflexivity. split; cbn -[tp_make]; rewrite ?T, ?TP, ?CN; auto.
  - intros CN orc. unfold spur_ring_new. rewrite NM by reflexivity. split; cbn -[tp_make]; rewrite ?T, ?TP; auto.
  - intros hb. destruct (helical_core p hb) as (zs & E).
    split; rewrite ?helical_in, ?E; unfold ig_new; rewrite ?(NM (helical_param p false)) by reflexivity; cbn -[tp_make]; rewrite ?T, ?TP; auto.
  - intros hb. unfold helical_ring_new. rewrite NM by reflexivity. destruct hb; split; cbn -[tp_make]; rewrite ?T, ?TP; auto.
Qed.

(** ** The number of rows *)
(** Two rows for straight teeth; otherwise at least three, and as many that no row but one has to cover more than a twelfth of a turn. *)
Theorem C116_layers h : let p := ig_in (h_gear h) in let nv := default_layers h in
  let twist := twist_of (k_zvals (ig_core (h_gear h))) (h_angle h) in
  (ip_crown p = 0 -> ip_helix p = 0 -> nv = 2%nat) /\
  (ip_crown p <> 0 \/ ip_helix p <> 0 -> (3 <= nv)%nat /\ twist <= (INR nv - 2) * (PI / 6) /\
    (4 < INR nv -> (INR nv - 3) * (PI / 6) <= twist)).
Proof.
  intros p nv twist. unfold nv, default_layers, n_vert_involute. fold p twist. cbv zeta. pose proof PI_RGT_0. split.
  - intros -> ->. destruct (Req_EM_T 0 0); [reflexivity|contradiction].
  - intros NZ. assert (K : let m := if Rlt_dec (PI / 6) twist then (3 + Z.to_nat (floorZ (twist / (PI / 6))))%nat
      else if Req_EM_T (k_cone (ig_core (h_gear h))) 0 then 3%nat else 4%nat in
      (3 <= m)%nat /\ twist <= (INR m - 2) * (PI / 6) /\ (4 < INR m -> (INR m - 3) * (PI / 6) <= twist)).
    { cbv zeta. destruct (Rlt_dec (PI / 6) twist) as [L|L].
      - pose proof (floorZ_bound (twist / (PI / 6))) as FB. set (q := floorZ (twist / (PI / 6))) in *.
        assert (E : twist / (PI / 6) * (PI / 6) = twist) by (field; lra).
        assert (Q0 : (0 <= q)%Z).
        { apply Z.lt_succ_r, lt_IZR. rewrite succ_IZR. apply Rle_lt_trans with (twist / (PI / 6)); [|lra]. apply Rlt_le, Rdiv_lt_0_compat; lra. }
        assert (EQ : INR (3 + Z.to_nat q) = 3 + IZR q) by (rewrite plus_INR, (INR_IZR_INZ (Z.to_nat q)), Z2Nat.id by exact Q0; cbn; ring).
        rewrite EQ. split; [lia|]. split.
        + rewrite <- E at 1. apply Rmult_le_compat_r; lra.
        + intros _. rewrite <- E. apply Rmult_le_compat_r; lra.
      - destruct (Req_EM_T _ 0); cbn [INR]; (split; [lia|split; [lra|intros; lra]]). }
    cbv zeta in K. destruct (Req_EM_T (ip_crown p) 0) as [C|C]; [|exact K].
    destruct (Req_EM_T (ip_helix p) 0) as [B|B]; [|exact K]. destruct NZ; contradiction.
Qed.

(** The same for a CycloidGear, with an eighth of a turn. *)
Theorem C116_layers_cycloid helix cone crown twist : let nv := n_vert_cycloid helix cone crown twist in
  (helix = 0 -> cone = 0 -> crown = 0 -> nv = 2%nat) /\
  (helix <> 0 \/ cone <> 0 \/ crown <> 0 -> (3 <= nv)%nat /\ twist <= (INR nv - 2) * (PI / 4)).
Proof.
  intros nv. unfold nv, n_vert_cycloid. pose proof PI_RGT_0. split.
  - intros -> -> ->. destruct (Req_EM_T 0 0); [reflexivity|contradiction].
  - intros NZ. set (m := if Rlt_dec (PI / 4) twist then _ else _).
    assert (K : (3 <= m)%nat /\ twist <= (INR m - 2) * (PI / 4)).
    { unfold m. destruct (Rlt_dec (PI / 4) twist) as [L|L].
      - pose proof (floorZ_bound (twist / (PI / 4))) as FB. set (q := floorZ (twist / (PI / 4))) in *.
        assert (E : twist / (PI / 4) * (PI / 4) = twist) by (field; lra).
        assert (Q0 : (0 <= q)%Z).
        { apply Z.lt_succ_r, lt_IZR. rewrite succ_IZR. apply Rle_lt_trans with (twist / (PI / 4)); [|lra]. apply Rlt_le, Rdiv_lt_0_compat; lra. }
        assert (EQ : INR (3 + Z.to_nat q) = 3 + IZR q) by (rewrite plus_INR, (INR_IZR_INZ (Z.to_nat q)), Z2Nat.id by exact Q0; cbn; ring).
        rewrite EQ. split; [lia|]. rewrite <- E at 1. apply Rmult_le_compat_r; lra.
      - cbn [INR]. split; [lia|lra]. }
    destruct (Req_EM_T helix 0); [|exact K]. destruct (Req_EM_T cone 0); [|exact K]. destruct (Req_EM_T crown 0); [|exact K]. tauto.
Qed.
Example C116_layers_cycloid_example : n_vert_cycloid 0 0 0 0 = 2%nat /\ 4 <= INR (n_vert_cycloid (PI / 4) 0 0 (PI / 2)).
Proof.
  split; [apply C116_layers_cycloid; reflexivity|]. pose proof PI_RGT_0.
  destruct (C116_layers_cycloid (PI / 4) 0 0 (PI / 2)) as (_ & L). destruct (L ltac:(left; lra)) as (_ & B). cbv zeta in B. nra.
Qed.

(** For an InvoluteGear the twist is that of a helix of the given angle on the pitch circle over the height of the gear. *)
Theorem C116_layers_involute p : 0 < ip_teeth p -> 0 < ip_module p -> 0 <= ip_height p ->
  let h := as_hgear (ig_new p) in let nv := default_layers h in
  let twist := Rabs (tan (ip_helix p)) * (ip_height p / ip_module p) / (ip_teeth p / 2) in
  twist_of (k_zvals (ig_core (h_gear h))) (h_angle h) = twist /\
  (ip_crown p <> 0 \/ ip_helix p <> 0 -> (3 <= nv)%nat /\ twist <= (INR nv - 2) * (PI / 6)).
Proof.
  intros T M H h nv twist.
  assert (NN : ip_normalise p = p) by (unfold ip_normalise; destruct (Rlt_dec _ 0); [lra|reflexivity]).
  assert (TE : twist_of (k_zvals (ig_core (h_gear h))) (h_angle h) = twist).
  { rewrite (twist_linear _ _ (tan (ip_helix p) / (ip_teeth p / 2))).
    - unfold h, as_hgear, ig_new. rewrite NN. cbn [h_gear ig_core calc_params k_zvals nth].
      unfold Rdiv at 1. rewrite Rabs_mult, (Rabs_right (/ (ip_teeth p / 2))) by (apply Rle_ge, Rlt_le, Rinv_0_lt_compat; lra).
      unfold twist. field. lra.
    - unfold h, as_hgear, ig_new. rewrite NN. cbn [h_gear ig_core calc_params k_zvals nth].
      assert (0 <= ip_height p / ip_module p) by (apply Rmult_le_pos; [exact H|apply Rlt_le, Rinv_0_lt_compat; exact M]). nra.
    - intros z _. unfold h, as_hgear, ig_new. rewrite NN. cbn [h_gear h_angle ig_core calc_params k_spiral]. reflexivity. }
  split; [exact TE|]. intros NZ. destruct (C116_layers h) as (_ & L). cbv zeta in L.
  assert (EI : ig_in (h_gear h) = p) by (unfold h, as_hgear, ig_new; rewrite NN; reflexivity).
  rewrite EI, TE in L. destruct (L NZ) as (A & B & _). auto.
Qed.

(** A HelicalGear never needs more than 15 rows: its sections are split where the twist exceeds a full turn. *)
Theorem C116_layers_helical p hb : 0 < ip_teeth p -> 0 < ip_module p -> 0 < ip_height p -> 0 < cos (ip_helix p) ->
  (default_layers (helical_new p hb) <= 15)%nat.
Proof.
  intros T M H C. pose proof PI_RGT_0. destruct (C70_sections p hb T M H C) as (SS & Z0 & ZL & MID & TW). cbv zeta in Z0, ZL, MID.
  set (h := helical_new p hb) in *. set (zs := k_zvals (ig_core (h_gear h))) in *.
  assert (MP : 0 < k_module (ig_core (h_gear h))).
  { unfold h. destruct (helical_core p hb) as (zz & ->). unfold ig_new. rewrite helical_normalise by exact T. cbn. apply Rdiv_lt_0_compat; assumption. }
  assert (HP : 0 < ip_height p / k_module (ig_core (h_gear h))) by (apply Rdiv_lt_0_compat; assumption).
  set (zb := - (ip_height p / k_module (ig_core (h_gear h))) * ip_zanchor p) in *.
  set (zt := ip_height p / k_module (ig_core (h_gear h)) * (1 - ip_zanchor p)) in *.
  assert (BT : zb < zt) by (unfold zb, zt; lra).
  assert (EX : exists z1 r, zs = zb :: z1 :: r).
  { clearbody zs. destruct zs as [|a [|b r]]; cbn in Z0, ZL; [lra|lra|]. subst a. eauto. }
  destruct EX as (z1 & r & EZ). assert (ZS : k_zvals (ig_core (h_gear h)) = zb :: z1 :: r) by exact EZ. clearbody zs. subst zs.
  assert (L1 : zb < z1) by (inversion SS as [|? ? _ F]; inversion F; assumption).
  set (w := k_spiral (ig_core (ig_new (helical_param p false)))).
  assert (LIN : forall z, zb <= z <= z1 -> h_angle h z = z * w).
  { intros z Hz. unfold h in *. destruct hb; [|reflexivity].
    destruct (C70_herringbone_symmetric p T M H C) as (_ & LO). unfold k_z_first, k_z_last in LO. rewrite ZS in LO. cbn [nth] in LO. rewrite ZL in LO.
    rewrite LO; [reflexivity|]. specialize (MID eq_refl). destruct MID as [MD|MD]; [lra|].
    assert (z1 <= (zb + zt) / 2); [|lra]. destruct MD as [->|MD]; [lra|]. inversion SS as [|? ? S1 _]. inversion S1 as [|? ? _ F1]. subst.
    rewrite List.Forall_forall in F1. apply Rlt_le, F1, MD. }
  destruct (C116_layers h) as (A & B). cbv zeta in A, B. rewrite ZS in B.
  rewrite (twist_linear (zb :: z1 :: r) _ w) in B by (cbn [nth]; try lra; exact LIN). cbn [nth] in B.
  assert (TB : Rabs w * (z1 - zb) <= 2 * PI).
  { specialize (TW 0%nat ltac:(cbn; lia)). cbn [nth] in TW. rewrite !LIN in TW by lra. replace (z1 * w - zb * w) with (w * (z1 - zb)) in TW by ring.
    rewrite Rabs_mult, (Rabs_right (z1 - zb)) in TW by lra. exact TW. }
  destruct (Req_dec (ip_crown (ig_in (h_gear h))) 0) as [C0|C0]; [destruct (Req_dec (ip_helix (ig_in (h_gear h))) 0) as [B0|B0]|].
  - rewrite A by assumption. lia.
  - destruct (B (or_intror B0)) as (_ & _ & U). destruct (Nat.le_gt_cases (default_layers h) 15) as [L|L]; [exact L|exfalso].
    apply (lt_INR 15) in L. cbn [INR] in L. specialize (U ltac:(lra)). nra.
  - destruct (B (or_introl C0)) as (_ & _ & U). destruct (Nat.le_gt_cases (default_layers h) 15) as [L|L]; [exact L|exfalso].
    apply (lt_INR 15) in L. cbn [INR] in L. specialize (U ltac:(lra)). nra.
Qed.

Lemma twist_ge zs angle : Rabs (angle (nth 1 zs 0) - angle (nth 0 zs 0)) <= twist_of zs angle.
Proof.
  unfold twist_of. set (z0 := nth 0 zs 0). set (z1 := nth 1 zs 0). set (sm := map angle (np_linspace z0 z1 20)).
  destruct (linspace_ends z0 z1 20) as (E0 & E1); [lia|].
  assert (NE : sm <> []) by (unfold sm; cbn; discriminate).
  destruct (list_max_spec sm NE) as (M1 & M2). destruct (list_min_spec sm NE) as (N1 & N2).
  pose proof (M2 _ (in_map angle _ _ E0)). pose proof (M2 _ (in_map angle _ _ E1)).
  pose proof (N2 _ (in_map angle _ _ E0)). pose proof (N2 _ (in_map angle _ _ E1)).
  rewrite (Rabs_right (list_max _ - _)) by lra. apply Rabs_le. lra.
Qed.

(** A HelicalRingGear is built with at most five rows however far its teeth are twisted. *)
Theorem C116_layers_ring_refuted p : 0 < ip_teeth p -> 0 < ip_module p -> 0 < cos (ip_helix p) -> ip_helix p <> 0 ->
  - PI / 2 < ip_helix p < PI / 2 -> forall bound,
  exists height, 0 < height /\
    let h := helical_ring_new (mkIP (ip_teeth p) height (ip_helix p) (ip_cone p) (ip_center p) (ip_angle p)
      (ip_module p) (ip_undercut p) (ip_root_fillet p) (ip_tip_fillet p) (ip_tip_trunc p)
      (ip_shift p) (ip_add p) (ip_ded p) (ip_alpha p) (ip_backlash p) (ip_crown p) (ip_inside p) (ip_zanchor p)) false in
    let zs := k_zvals (ig_core (h_gear h)) in
    let twist := twist_of zs (h_angle h) in
    length zs = 2%nat /\ bound < twist /\ (n_vert_helical_ring twist <= 5)%nat.
Proof.
  intros T M C B D bound. destruct (C70_ring_twist_refuted p T M C B D bound) as (height & P & L & G). exists height. split; [exact P|].
  cbv zeta in L, G |- *. split; [exact L|]. split; [eapply Rlt_le_trans; [exact G|apply twist_ge]|].
  unfold n_vert_helical_ring. destruct (Rlt_dec _ _); [lia|]. destruct (Rlt_dec _ _); lia.
Qed.

(** ** The gear of the examples of C105: eight teeth, pressure angle 30 degrees *)
Definition ex_gear : igear := ig_new (RadiiProps.ex_param (2 * sqrt 6 - 4) 0).
Lemma ex_cyl : cyl_gear ex_gear 8 /\ plain_teeth ex_gear /\ ip_crown (ig_in ex_gear) = 0 /\ ip_helix (ig_in ex_gear) = 0 /\
  k_zvals (ig_core ex_gear) = [- (3 / 2) * 0; 3 / 2 * (1 - 0)] /\ (forall z, h_angle (as_hgear ex_gear) z = 0).
Proof.
  assert (NN : ip_normalise (RadiiProps.ex_param (2 * sqrt 6 - 4) 0) = RadiiProps.ex_param (2 * sqrt 6 - 4) 0).
  { unfold ip_normalise, RadiiProps.ex_param. cbn [ip_teeth]. destruct (Rlt_dec 8 0); [lra|reflexivity]. }
  split; [apply (C116_kinds (RadiiProps.ex_param (2 * sqrt 6 - 4) 0) 8); try reflexivity; lia|].
  unfold as_hgear, ex_gear, ig_new. rewrite NN. split; [split; reflexivity|]. split; [reflexivity|]. split; [reflexivity|]. split; [reflexivity|].
  intros z. cbn. rewrite tan_0. field.
Qed.
Lemma ex_angles : flank_angle 4 (PI / 6) (PI / 16) 3 = - (sqrt 3 / 3 - 5 * PI / 48) /\
  flank_angle 4 (PI / 6) (PI / 16) (2 * sqrt 6) = 1 - sqrt 3 / 3 - 7 * PI / 48.
Proof.
  pose proof PI_3. pose proof PI_4.
  assert (C : cos (PI / 6) = sqrt 3 / 2) by apply cos_PI6.
  assert (S3 : 17 / 10 < sqrt 3) by (apply sqrt_bound; lra). assert (S3' : sqrt 3 < 1733 / 1000) by (apply sqrt_bound_up; lra).
  assert (S6 : 2 < sqrt 6) by (apply sqrt_bound; lra).
  assert (T6 : tan (PI / 6) = 1 / sqrt 3) by apply tan_PI6.
  assert (Q3 : 1 / sqrt 3 = sqrt 3 / 3).
  { pose proof (sqrt_sqrt 3 ltac:(lra)) as Q. field_simplify_eq; [|lra]. replace (sqrt 3 ^ 2) with (sqrt 3 * sqrt 3) by ring. lra. }
  assert (I6 : inv (PI / 6) = sqrt 3 / 3 - PI / 6) by (unfold inv; rewrite T6, Q3; ring).
  split.
  - rewrite flank_low by (rewrite ?C; lra). rewrite I6. lra.
  - unfold flank_angle. replace (2 * sqrt 6) with (2 * (sqrt 2 * sqrt 3)).
    2:{ rewrite <- sqrt_mult by lra. replace (2 * 3) with 6 by ring. ring. }
    assert (S2 : 0 < sqrt 2) by (apply sqrt_lt_R0; lra).
    replace (4 * cos (PI / 6) / (2 * (sqrt 2 * sqrt 3))) with (1 / sqrt 2) by (rewrite C; field; lra).
    rewrite <- cos_PI4, Rmin_right by apply COS_bound. rewrite acos_cos by lra.
    unfold inv at 1. rewrite tan_PI4. rewrite I6. lra.
Qed.
Lemma sin_over x : 1 / 1000 <= x <= 1 -> 1 / 2000 < sin x.
Proof.
  intros H. pose proof PI_3. pose proof (IndexProps.sin_lower x) as L.
  rewrite (Rabs_right x), (Rabs_right (sin x)) in L by (try lra; apply Rle_ge, sin_ge_0; lra). eapply Rlt_le_trans; [|exact L].
  assert (0 <= x * x <= 1) by nra. apply Rlt_le_trans with (1 / 1000 * (5 / 6)); [lra|]. apply Rmult_le_compat; lra.
Qed.

Lemma ex_toothed : exists sv ts, forall fs z, exists t, toothed sv fs ts ex_gear 8 z t /\
  axis_dist (n_point t 0) = 3 /\ axis_dist (n_point t 1) = 2 * sqrt 6.
Proof.
  destruct ex_searched as (sv & ts & PL & EI & HO & SE). exists sv, ts. intros fs z. fold ex_gear in *. destruct (SE z) as (SA & SS).
  destruct ex_cyl as (CG & PT & _). pose proof (spur_core ex_gear 8 z PL) as K. cbv zeta in K. destruct K as (E1 & E2 & E3 & E4 & E5 & E6 & E7 & E8 & SO & NT).
  pose proof PI_3. pose proof PI_4.
  assert (S3 : 17 / 10 < sqrt 3) by (apply sqrt_bound; lra). assert (S3' : sqrt 3 < 1733 / 1000) by (apply sqrt_bound_up; lra).
  assert (S6 : 2 < sqrt 6) by (apply sqrt_bound; lra).
  destruct (ex_plain (2 * sqrt 6 - 4) 0) as (_ & PA & _). fold ex_gear in PA.
  assert (PA' : ig_pia ex_gear z = PI / 16) by (rewrite PA; field).
  destruct ex_angles as [A3 A6].
  assert (R3 : 4 - 1 = 3) by ring. assert (R6 : 4 + (2 * sqrt 6 - 4) = 2 * sqrt 6) by ring.
  assert (EHA : k_ha (ig_core ex_gear) = 2 * sqrt 6 - 4) by (rewrite E3, EI; cbn; ring).
  assert (EHD : k_hd (ig_core ex_gear) = 1) by (rewrite E4, EI; cbn; ring).
  assert (EAL : k_alpha (ig_core ex_gear) = PI / 6) by (rewrite E2, EI; reflexivity).
  assert (R4 : 8 / 2 = 4) by field. assert (P8 : 2 * PI / 8 = PI / 4) by field.
  destruct (C116_involute sv fs ts ex_gear 8 z CG PT) as (t & TD & P0 & P1).
  - unfold spur_at in SA. rewrite E2, E3, E4. exact SA.
  - unfold searched in SS. unfold crossings_found. rewrite E2, E3, E4. exact SS.
  - rewrite EHA, EAL, PA', R4, R6, A6. assert (SN := sin_over (- (1 - sqrt 3 / 3 - 7 * PI / 48)) ltac:(lra)).
    apply Rlt_le_trans with (2 * (2 * 2) * (1 / 2000)); [lra|]. apply Rmult_le_compat; lra.
  - rewrite EHD, EAL, PA', R4, R3, P8, A3. assert (SN := sin_over (PI / 4 / 2 + - (sqrt 3 / 3 - 5 * PI / 48)) ltac:(lra)). lra.
  - rewrite EHD, R4, R3. assert (SN := sin_over (PI / 8) ltac:(lra)). unfold DELTA. lra.
  - exists t. split; [exact TD|]. rewrite P0, P1, EHD, EHA, R4, R3, R6. split.
    + apply (flank_dist 4). lra.
    + apply (flank_dist 4). lra.
Qed.

(** The gear is one of them; its part is closed, has walls parallel to the axis and eight bottoms and tops of radius 3 and 2 sqrt 6. *)
Example C116_kinds_example : cyl_gear (h_gear (helical_new (mkIP 8 3 (PI / 12) 0 ORIGIN 0 2 false 0 0 0 0 1 1 (PI / 6) 0 0 false 0) true)) 8.
Proof. apply C116_kinds; [reflexivity|lia]. Qed.
Example C116_involute_example : exists sv ts, forall fs z, exists t, toothed sv fs ts ex_gear 8 z t /\
  axis_dist (n_point t 0) = 3 /\ axis_dist (n_point t 1) = 2 * sqrt 6.
Proof. exact ex_toothed. Qed.
Example C116_spur_example : exists sv ts, forall fs mid optC optS, exists c, build_part sv fs ts mid optC optS (as_hgear ex_gear) = Ok c /\
  paired (all_edges c) /\ cy_sides c <> [].
Proof.
  destruct ex_toothed as (sv & ts & TD). exists sv, ts. intros fs mid optC optS. destruct (TD fs 0) as (t & T & _). destruct ex_cyl as (CG & PT & CR & HX & EZ & AN).
  destruct (C116_spur sv fs ts mid optC optS (as_hgear ex_gear) 8 t) as (c & EB & PA & LC); try assumption.
  - cbn [as_hgear h_gear]. rewrite EZ. cbn. lia.
  - exists c. split; [exact EB|]. split; [exact PA|]. intros E. rewrite E in LC. cbn [as_hgear h_gear] in LC. rewrite EZ in LC.
    cbn [length] in LC. revert LC. generalize (leaves t). intros l. cbn. lia.
Qed.
Example C116_lands_example : exists sv ts, forall fs mid optC optS, exists c, build_part sv fs ts mid optC optS (as_hgear ex_gear) = Ok c /\
  forall j, (j < 8)%nat -> exists bottom top, In bottom (cy_sides c) /\ In top (cy_sides c) /\
    forall u v, axis_dist (nurbezier_surface u v (fst bottom) (snd bottom)) = 3 /\
      axis_dist (nurbezier_surface u v (fst top) (snd top)) = 2 * sqrt 6.
Proof.
  destruct ex_toothed as (sv & ts & TD). exists sv, ts. intros fs mid optC optS. destruct (TD fs 0) as (t & T & D0 & D1). destruct ex_cyl as (CG & PT & CR & HX & EZ & AN).
  destruct (C116_spur sv fs ts mid optC optS (as_hgear ex_gear) 8 t) as (c & EB & PA & LC); try assumption.
  - cbn [as_hgear h_gear]. rewrite EZ. cbn. lia.
  - exists c. split; [exact EB|]. intros j J.
    destruct (C116_lands sv fs ts mid optC optS (as_hgear ex_gear) 8 _ _ t c CG CR HX AN EZ T EB j J)
      as ((f & IF & _ & _ & F) & (g & IG & _ & _ & G)). cbv zeta in *.
    exists f, g. split; [exact IF|]. split; [exact IG|]. intros u v. rewrite (proj1 (F u v)), (proj1 (G u v)). auto.
Qed.
(** The lowest and the highest point of a wall of the example are 3/2 apart, in the direction of the axis. *)
Example C116_walls_example : exists sv ts, forall fs mid optC optS, exists c, build_part sv fs ts mid optC optS (as_hgear ex_gear) = Ok c /\
  forall f, In f (cy_sides c) -> exists row ws, f = ([row; map (vadd (V 0 0 (3 / 2))) row], [ws; ws]).
Proof.
  destruct ex_toothed as (sv & ts & TD). exists sv, ts. intros fs mid optC optS. destruct (TD fs 0) as (t & T & D0 & D1). destruct ex_cyl as (CG & PT & CR & HX & EZ & AN).
  destruct (C116_spur sv fs ts mid optC optS (as_hgear ex_gear) 8 t) as (c & EB & PA & LC); try assumption.
  - cbn [as_hgear h_gear]. rewrite EZ. cbn. lia.
  - exists c. split; [exact EB|]. intros f IF.
    destruct (C116_walls sv fs ts mid optC optS (as_hgear ex_gear) 8 _ _ t c CG CR HX AN EZ T EB f IF)
      as (row & ws & E & _). exists row, ws. rewrite E. replace (3 / 2 * (1 - 0) - - (3 / 2) * 0) with (3 / 2) by ring. reflexivity.
Qed.
(** The same gear with n_points_hz = 5. *)
Example C116_uncrowned_example : exists sv ts, forall fs mid optC optS, exists c, build_gear sv fs ts mid optC optS (as_hgear ex_gear) 5 2 = Ok c /\
  paired (all_edges c) /\ cy_sides c <> [].
Proof.
  destruct ex_toothed as (sv & ts & TD). exists sv, ts. intros fs mid optC optS. destruct (TD fs 0) as (t & T & D0 & D1). destruct ex_cyl as (CG & PT & CR & HX & EZ & AN).
  destruct (C116_uncrowned sv fs ts mid optC optS (as_hgear ex_gear) 8 5 2 t) as (c & EB & PA & LC); try assumption; try lia.
  - cbn [as_hgear h_gear]. rewrite EZ. cbn. lia.
  - left. apply (two_layers (as_hgear ex_gear)); assumption.
  - exists c. split; [exact EB|]. split; [exact PA|]. intros E. rewrite E in LC. cbn [as_hgear h_gear] in LC. rewrite EZ in LC.
    cbn [length] in LC. revert LC. generalize (leaves t). intros l. cbn. lia.
Qed.
(** A gear of 20 teeth, module 1, height 10 and 45 degrees helix angle is twisted by one radian and built with four rows. *)
Example C116_layers_involute_example :
  let p := mkIP 20 10 (PI / 4) 0 ORIGIN 0 1 false 0 0 0 0 1 1 (PI / 9) 0 0 false 0 in
  default_layers (as_hgear (ig_new p)) = 4%nat /\ twist_of (k_zvals (ig_core (ig_new p))) (h_angle (as_hgear (ig_new p))) = 1.
Proof.
  intros p. pose proof PI_3. pose proof PI_4.
  destruct (C116_layers_involute p) as (TW & _); try (cbn; lra). cbn [p ip_helix ip_height ip_module ip_teeth] in TW.
  rewrite tan_PI4, Rabs_right in TW by lra. replace (1 * (10 / 1) / (20 / 2)) with 1 in TW by field. split; [|exact TW].
  assert (NN : ip_normalise p = p) by (unfold ip_normalise, p; cbn [ip_teeth]; destruct (Rlt_dec 20 0); [lra|reflexivity]).
  assert (EI : ig_in (h_gear (as_hgear (ig_new p))) = p) by (unfold as_hgear, ig_new; rewrite NN; reflexivity).
  unfold default_layers. cbv zeta. rewrite EI, TW. unfold n_vert_involute, p. cbn [ip_crown ip_helix].
  destruct (Req_EM_T 0 0); [|contradiction]. destruct (Req_EM_T (PI / 4) 0); [lra|]. destruct (Rlt_dec (PI / 6) 1); [|lra].
  replace (floorZ (1 / (PI / 6))) with 1%Z; [reflexivity|]. symmetry. apply floorZ_unique.
  assert (E : 1 / (PI / 6) * (PI / 6) = 1) by (field; lra). split; nra.
Qed.
(** Split into sections of at most one turn, a helical gear of height 1000 has 15 rows at most; the ring gear has five. *)
Example C116_layers_helical_example hb :
  (default_layers (helical_new (mkIP 20 1000 (PI / 4) 0 ORIGIN 0 1 false 0 0 0 0 1 1 (PI / 9) 0 0 false 0) hb) <= 15)%nat.
Proof. apply C116_layers_helical; cbn; try lra. rewrite cos_PI4. apply Rdiv_lt_0_compat; [lra|]. apply sqrt_lt_R0. lra. Qed.
(** Twelve points per flank and the default two rows. *)
Example C116_closed_example : exists sv ts, forall fs mid optC optS, exists (K : list nat) c,
  build_gear sv fs ts mid optC optS (as_hgear ex_gear) 12 2 = Ok c /\ paired (all_edges c) /\ length (cy_sides c) = (8 * (length K - 4))%nat.
Proof.
  destruct ex_toothed as (sv & ts & TD). exists sv, ts. intros fs mid optC optS. destruct (TD fs 0) as (t & T & _). destruct ex_cyl as (CG & PT & CR & HX & EZ & AN).
  destruct (base_chain sv fs ts mid optC (as_hgear ex_gear) (2 * PI / 8) 12 ltac:(lia) CR (toothed_section _ _ _ _ (as_hgear ex_gear) 8 t CG T)) as (b & OK & JT & LK & SC).
  destruct (C116_closed sv fs ts mid optC optS (as_hgear ex_gear) 8 12 2 (nb_knots b) CG) as (c & EB & PA & LC); try lia.
  - cbn [as_hgear h_gear]. rewrite EZ. cbn. lia.
  - intros z _. split; [destruct (TD fs z) as (t' & T' & _); exists t'; exact T'|].
    intros c E. rewrite SC in E. apply Ok_inj in E. rewrite <- E. apply knots_moved.
  - left. apply (two_layers (as_hgear ex_gear)); assumption.
  - exists (nb_knots b), c. split; [exact EB|]. split; [exact PA|]. rewrite LC. cbn [as_hgear h_gear]. rewrite EZ. cbn. lia.
Qed.
