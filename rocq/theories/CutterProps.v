(** C117: the tooth surfaces of a bevel gear form a tube that is open only beyond the ends of the blank, made of lines through
    the apex.  C118: what building does to the gear. *)
From Coq Require Import Nsatz Reals ZArith Lra Lia List Bool Arith Permutation.
From Verif Require Import Num Vec Coords CoordsProps Transform TransformProps Params ParamsProps Bezier BezierLem BezierProps Interp Curve CurveLem CurveProps
  ArcLem ArcProps Chain ChainLem ChainProps NurbsProps GearMath Tooth Wrapper Info RefLines RefLinesProps Profile ProfileLem ProfileProps
  Build BuildProps Convert ConvertProps NurbConvProps Fillet FilletProps FlankProps Teeth RackConjProps UndercutProps Report ReportProps RadiiProps
  UndercutProps CrownRackProps GenProps RisingLem SpurProps OutlineProps ReduceProps ConeFlankProps TightProps OctoidProps OctoidLem OctoidFlankProps Blank BlankProps Faces FacesProps Part PartProps Cutter.
Import ListNotations.
Open Scope R_scope.

(** ** The section *)
(** Points on different cones about the axis are not in line with the apex. *)
Lemma apart rp g b c p q : 0 < rp -> 0 < g < PI / 2 -> 0 < b -> 0 < c -> b <> c -> b + c < PI -> on_cone_at rp g b p -> on_cone_at rp g c q ->
  cross (vsub p (V 0 0 (rp / tan g))) (vsub q (V 0 0 (rp / tan g))) <> ORIGIN.
Proof.
  intros R G B C N S (A1 & Z1) (A2 & Z2) E. assert (SP : 0 < slant rp g) by (apply slant_pos; [exact R|pose proof PI_RGT_0; lra]).
  assert (K : sin (b - c) * sin (b + c) = 0).
  { rewrite sin_minus, sin_plus. revert A1 Z1 A2 Z2 E SP. generalize (slant rp g) (rp / tan g). intros L w A1 Z1 A2 Z2 E SP.
    unfold axis_sq in *. destruct p as [x y h], q as [x' y' h']. cbn [vx vy vz] in *. subst h h'. unfold cross, vsub in E. cbn [vx vy vz] in E.
    injection E as EX EY EZ. pose proof (sc1 b) as Sb. pose proof (sc1 c) as Sc.
    assert (L4 : L * L * (L * L) <> 0) by (apply Rgt_not_eq; repeat apply Rmult_lt_0_compat; exact SP).
    apply Rmult_eq_reg_l with (L * L * (L * L)); [|exact L4]. rewrite Rmult_0_r.
    replace (w - L * cos b - w) with (- (L * cos b)) in * by ring. replace (w - L * cos c - w) with (- (L * cos c)) in * by ring.
    replace (x - 0) with x in * by ring. replace (y - 0) with y in * by ring. replace (x' - 0) with x' in * by ring. replace (y' - 0) with y' in * by ring.
    assert (Y : y * (L * cos c) = y' * (L * cos b)) by lra. assert (X : x * (L * cos c) = x' * (L * cos b)) by lra.
    transitivity ((L * sin b) * (L * sin b) * ((L * cos c) * (L * cos c)) - (L * sin c) * (L * sin c) * ((L * cos b) * (L * cos b))); [ring|].
    rewrite <- A1, <- A2. transitivity ((x * (L * cos c)) * (x * (L * cos c)) + (y * (L * cos c)) * (y * (L * cos c)) - (x' * x' + y' * y') * (L * cos b * (L * cos b))); [ring|].
    rewrite X, Y. ring. }
  apply Rmult_integral in K. destruct K as [K|K]; [|assert (0 < sin (b + c)) by (apply sin_gt_0; lra); lra].
  destruct (Rtotal_order b c) as [L|[L|L]]; [|contradiction|].
  - assert (0 < sin (c - b)) by (apply sin_gt_0; lra). replace (b - c) with (- (c - b)) in K by ring. rewrite sin_neg in K. lra.
  - assert (0 < sin (b - c)) by (apply sin_gt_0; lra). lra.
Qed.
Lemma cone_round rp g b : BlankProps.round (on_cone_at rp g b).
Proof. intros p q E Z (A & H). split; congruence. Qed.

(** A bevel gear without crowning whose teeth have a land and a gap, and whose outside circle is not its root circle. *)
Record cuttable (sv : solver) (ts : tsolver) (g : igear) (n : Z) (gm lo hi td ta : R) : Prop := {
  cu_gear : bevel_gear g n gm; cu_crown : ip_crown (ig_in g) = 0;
  cu_at : bevel_at g n gm 0 lo hi td ta; cu_searched : bevel_searched sv ts g n gm 0 lo hi;
  cu_gap : / 10000000000 < bevel_space (IZR n / 2) gm (ip_alpha (ig_in g)) (ig_pia g 0) (ip_ded (ig_in g) - ip_shift (ig_in g)) (2 * PI / IZR n) td;
  cu_land : / 10000000000 < bevel_land (IZR n / 2) gm (ip_alpha (ig_in g)) (ig_pia g 0) (ip_add (ig_in g) + ip_shift (ig_in g)) ta;
  cu_out : let b := outside_angle n gm (k_ho (ig_core g)) in let c := gm - (ip_ded (ig_in g) - ip_shift (ig_in g)) / slant (IZR n / 2) gm in
    0 < b /\ b <> c /\ b + c < PI }.

(** The route along a section: gap, flank, land, mirrored flank, and the three pieces towards the outside circle. *)
Lemma cut_section sv fs ts mid h n gm lo hi td ta : cuttable sv ts (h_gear h) n gm lo hi td ta ->
  let g := h_gear h in let P := fun x => bevel_pt (IZR n / 2) gm (ip_alpha (ig_in g)) (ig_pia g 0) x in let pitch := 2 * PI / IZR n in
  exists cp a b, gear_section sv fs ts mid h 0 = Ok cp /\ regular_section cp (section_trf h 0) pitch /\
    route cp = [(turn (- pitch) (flip (P td)), P td); (P td, P ta); (P ta, flip (P ta)); (flip (P ta), flip (P td));
      (flip (P td), b); (b, a); (a, turn (- pitch) (flip (P td)))] /\
    on_cone_at (IZR n / 2) gm (gm - (ip_ded (ig_in g) - ip_shift (ig_in g)) / slant (IZR n / 2) gm) (P td) /\
    on_cone_at (IZR n / 2) gm (gm + (ip_add (ig_in g) + ip_shift (ig_in g)) / slant (IZR n / 2) gm) (P ta).
Proof.
  intros [H CR BA SE WS WL OU] g P pitch. fold g in H, CR, BA, SE, WS, WL, OU. cbv zeta in OU. pose proof (bt_g _ _ _ _ _ _ _ _ _ _ _ BA) as G.
  pose proof (bt_rp _ _ _ _ _ _ _ _ _ _ _ BA) as RP.
  destruct (C111_gear sv fs ts g n gm 0 lo hi td ta H BA SE) as (p & T' & EP & _). destruct SE as (LF & TF & RF).
  destruct (C111_flank sv ts _ _ _ _ _ _ _ _ _ _ _ _ _ BA LF TF RF) as (t & T & TR & FO & NO & FR & PS & T0 & T1 & MO & ON).
  destruct (bevel_leading _ _ _ _ _ _ _ _ _ _ _ t T BA PS T0 T1 MO) as (_ & _ & _ & G0 & G1). fold pitch in G0, NO, TR.
  assert (PT : exists c, t = Prim c /\ c_act c = true /\ ~ is_nurb c).
  { destruct (tooth_arc ts _ _ _ gm None ltac:(lra) LF) as (tl & th & E).
    destruct (bt_circles _ _ _ _ _ _ _ _ _ _ _ BA (k_ho (ig_core g))) as (CA & CD).
    pose proof (bt_trim_tip _ _ _ _ _ _ _ _ _ _ _ BA sv tl th _ CA (TF _ E)) as Q1. rewrite <- E in Q1.
    pose proof (bt_trim_root _ _ _ _ _ _ _ _ _ _ _ BA sv tl _ CD (RF _ Q1)) as Q2.
    unfold trim_flank in TR. fold pitch in Q1, Q2. rewrite Q1 in TR. cbn [bind] in TR. rewrite Q2 in TR. apply Ok_inj in TR.
    eexists. split; [symmetry; exact TR|]. split; [reflexivity|]. intros (ps & ws & X). discriminate X. }
  destruct PT as (c & -> & AC & NN).
  pose proof (bevel_core g n gm 0 H) as K. cbv zeta in K. destruct K as (E1 & E2 & E3 & E4 & E5 & E6 & E7 & SO & _).
  pose proof EP as EQ. unfold ig_profile in EQ. rewrite (bevel_ig_tooth ts g n gm 0 H) in EQ by lra. cbn [bind] in EQ.
  rewrite E1, E3, E4, E5, E7, (bg_tip _ _ _ H), (bg_root _ _ _ H), (bg_trunc _ _ _ H) in EQ. unfold generate_reference_profile in EQ.
  set (tooth := octoid_tooth ts (IZR n / 2) (ip_alpha (ig_in g)) (ig_pia g 0) (2 * gm) None) in *.
  set (rc := generate_reference_circles (IZR n / 2) (ip_add (ig_in g) + ip_shift (ig_in g)) (ip_ded (ig_in g) - ip_shift (ig_in g))
               (k_ho (ig_core g)) (2 * gm) (IZR n / 2)) in *. fold pitch in EQ.
  replace (reduced_circles fs tooth rc 0 (2 * gm) (IZR n / 2)) with rc in EQ
    by (unfold reduced_circles; destruct (Rlt_dec 0 0); [lra|reflexivity]).
  replace (filleted_flank fs tooth rc 0 0 pitch) with (Ok tooth) in EQ
    by (unfold filleted_flank; destruct (Rlt_dec 0 0); [lra|reflexivity]).
  cbn [bind] in EQ. destruct (trim_reference_profile sv tooth rc 0 0 pitch) as [p0|] eqn:ET; [|discriminate].
  cbn [bind] in EQ. apply Ok_inj in EQ.
  destruct (trimmed_assembled _ _ _ _ _ _ _ _ FR TR FO NO ET) as (FR' & AS0).
  assert (AS : assembled (Prim c) pitch p) by (subst p; destruct AS0; split; assumption). clear AS0 EQ.
  assert (PC : forall u, lo <= u <= hi -> on_cone_at (IZR n / 2) gm (cone_angle_at gm (ip_alpha (ig_in g)) u) (P u)).
  { intros u U. destruct (bt_polar _ _ _ _ _ _ _ _ _ _ _ BA u U) as (E & _). unfold P. rewrite E. unfold on_cone_at, axis_sq. cbn [vx vy vz].
    split; [|reflexivity]. pose proof (sc1 (bevel_angle gm (ip_alpha (ig_in g)) (ig_pia g 0) u)) as C. revert C.
    generalize (sin (bevel_angle gm (ip_alpha (ig_in g)) (ig_pia g 0) u)) (cos (bevel_angle gm (ip_alpha (ig_in g)) (ig_pia g 0) u))
      (slant (IZR n / 2) gm * sin (cone_angle_at gm (ip_alpha (ig_in g)) u)). clear. intros. nsatz. }
  pose proof (PC td (bt_td _ _ _ _ _ _ _ _ _ _ _ BA)) as C0. pose proof (PC ta (bt_ta _ _ _ _ _ _ _ _ _ _ _ BA)) as C1.
  rewrite (bt_cone_td _ _ _ _ _ _ _ _ _ _ _ BA) in C0. rewrite (bt_cone_ta _ _ _ _ _ _ _ _ _ _ _ BA) in C1. clear PC.
  assert (N0 : n_point (Prim c) 0 = P td) by (destruct (PS 0 ltac:(lra)) as (-> & _); rewrite T0; reflexivity).
  assert (N1 : n_point (Prim c) 1 = P ta) by (destruct (PS 1 ltac:(lra)) as (-> & _); rewrite T1; reflexivity).
  destruct OU as (B0 & BN & BC). set (b := outside_angle n gm (k_ho (ig_core g))) in *. set (rt := gm - _) in *.
  pose proof (bt_cones _ _ _ _ _ _ _ _ _ _ _ BA) as (K0 & K1 & K2). fold rt in K0, K1.
  destruct (bevel_outside sv fs ts g n gm 0 p H G EP ltac:(fold b; lra)) as (OR & OC & _). fold b in OR, OC.
  assert (RO : forall s, on_cone_at (IZR n / 2) gm b (c_eval (pr_ro p) s)).
  { intros s. destruct (as_ro _ _ _ AS) as (r & a & ce & y & E). revert OR OC. rewrite E. unfold arc_radius, arc_center, arc_curve. rewrite arc_new_shape. intros -> ->.
    fold (arc_curve (slant (IZR n / 2) gm * sin b) a (V 0 0 (IZR n / 2 / tan gm - slant (IZR n / 2) gm * cos b)) y 0 0 true).
    rewrite yaw_arc. split; [|reflexivity]. unfold axis_sq. cbn [vx vy]. pose proof (sc1 (y + a * s)) as C. revert C.
    generalize (sin (y + a * s)) (cos (y + a * s)) (slant (IZR n / 2) gm * sin b). clear. intros. nsatz. }
  assert (F0 : on_cone_at (IZR n / 2) gm rt (flip (P td))) by (destruct (flip_round (P td)); apply (cone_round _ _ _ (P td)); [symmetry| symmetry|]; assumption).
  assert (A0 : on_cone_at (IZR n / 2) gm rt (turn (- pitch) (flip (P td)))) by
    (destruct (turn_round (- pitch) (flip (P td))); apply (cone_round _ _ _ (flip (P td))); [symmetry| symmetry|]; assumption).
  assert (CN : forall s q, on_cone_at (IZR n / 2) gm rt q -> connectable (2 * gm) (V 0 0 (IZR n / 2 / tan gm)) (c_eval (pr_ro p) s) q).
  { intros s q Q. right. split; [rewrite (on_cone_dist _ _ _ _ RP G (RO s)), (on_cone_dist _ _ _ _ RP G Q); reflexivity|].
    apply (apart _ _ b rt); try assumption. exact (RO s). }
  assert (AP : c_center (k_recipe_cone (ig_core g)) = V 0 0 (IZR n / 2 / tan gm)).
  { unfold c_center, k_recipe_cone, gamma. cbn [base_radius c_trf cone_angle]. rewrite E1, E5. replace (2 * gm / 2) with gm by field. rewrite apply_transform_eq.
    unfold t_default. cbn [t_orient t_scale t_center]. rewrite mapp_I. generalize (IZR n / 2) (tan gm). clear. intros. apply vec_eq; vec_simpl; unfold Rdiv; ring. }
  assert (EX : exists e, generate_profile_extensions p (2 * gm) (V 0 0 (IZR n / 2 / tan gm)) (mid p) = Ok e).
  { destruct (start_exists _ pitch p FO FR' NO AS) as (a & EA & _). unfold generate_profile_extensions.
    rewrite EA, (as_tooth _ _ _ AS), (leaves_wf _ (fo_act _ FO) (fo_pos _ FO)). cbn [bind]. eexists. reflexivity. }
  destruct EX as (e & EE).
  assert (PF : plain_flank (Prim c)) by (split; [cbn; rewrite AC; reflexivity|constructor; [exact NN|constructor]]).
  destruct (bridge (Prim c) pitch p FO FR' NO AS PF ltac:(rewrite G0; exact WS) ltac:(rewrite G1; exact WL) (2 * gm) (V 0 0 (IZR n / 2 / tan gm)) (mid p) e (section_trf h 0))
    as (RS & _ & RT).
  - rewrite N0. apply CN, A0.
  - rewrite N0. apply CN, F0.
  - exact EE.
  - reflexivity.
  - unfold section_trf. cbn. ring.
  - unfold section_trf. cbn. ring.
  - exists (cv_of_ext e), (c_eval (pr_ro p) 0), (c_eval (pr_ro p) 1). split; [|split; [exact RS|split; [|auto]]].
    + unfold gear_section. fold g. rewrite EP. cbn [bind]. rewrite E5, AP, EE. reflexivity.
    + rewrite RT, N0, N1. cbn [leaves]. rewrite AC. cbn [map app rev]. unfold cleg, mleg.
      assert (Z : forall x, c_eval c x = n_point (Prim c) x) by (intros x; unfold n_point; rewrite prim_eval by exact AC; reflexivity).
      rewrite !Z, N0, N1. reflexivity.
Qed.

(** ** The extended heights *)
Lemma extend_facts r zs : (2 <= length zs)%nat -> let d := last zs 0 - hd 0 zs in
  length (extend_zvals r zs) = length zs /\ nth 0 (extend_zvals r zs) 0 = hd 0 zs - r * d /\
  nth (length zs - 1) (extend_zvals r zs) 0 = last zs 0 + r * d /\
  (forall i, (0 < i)%nat -> (S i < length zs)%nat -> nth i (extend_zvals r zs) 0 = nth i zs 0).
Proof.
  intros L d. destruct zs as [|a [|b zs]]; [cbn in L; lia|cbn in L; lia|].
  assert (E : extend_zvals r (a :: b :: zs) = (a - r * d) :: removelast (b :: zs) ++ [last (a :: b :: zs) 0 + r * d]) by reflexivity.
  set (x := last (a :: b :: zs) 0 + r * d) in *. rewrite E.
  assert (LR : length (removelast (b :: zs)) = length zs) by (rewrite removelast_length; cbn; lia).
  split; [cbn [length]; rewrite app_length, LR; cbn; lia|]. split; [reflexivity|]. split.
  - cbn [length Nat.sub]. cbn [nth]. rewrite app_nth2, LR, Nat.sub_diag by lia. reflexivity.
  - intros [|i] I J; [lia|]. cbn [length] in J. change (nth i (removelast (b :: zs) ++ [x]) 0 = nth i (b :: zs) 0). rewrite app_nth1 by lia.
    transitivity (nth i (removelast (b :: zs) ++ [last (b :: zs) 0]) 0); [rewrite app_nth1 by lia; reflexivity|]. rewrite removelast_snoc by discriminate. reflexivity.
Qed.
(** The sections do not depend on the heights. *)
Lemma section_zvals sv fs ts mid h zs z : gear_section sv fs ts mid (h_with_zvals h zs) z = gear_section sv fs ts mid h z.
Proof. reflexivity. Qed.

(** ** A ring of edges *)
Definition edge_start (e : bez_edge) : vec := hd ORIGIN (fst e).
Definition edge_end (e : bez_edge) : vec := last (fst e) ORIGIN.
(** Each edge starts where the one before ends, the first one where the last one ends. *)
Fixpoint follow (l : list bez_edge) : Prop :=
  match l with e :: ((f :: _) as r) => edge_end e = edge_start f /\ follow r | _ => True end.
Definition loop (l : list bez_edge) : Prop := l <> [] /\ follow l /\ edge_end (last l ([], [])) = edge_start (hd ([], []) l).

Lemma follow_app a b : follow a -> follow b -> (a <> [] -> b <> [] -> edge_end (last a ([], [])) = edge_start (hd ([], []) b)) -> follow (a ++ b).
Proof.
  induction a as [|e a IH]; intros A B E; [exact B|]. destruct a as [|f a].
  - destruct b as [|g b]; [exact I|]. split; [apply E; discriminate|exact B].
  - destruct A as [A1 A2]. split; [exact A1|]. apply IH; [exact A2|exact B|]. intros _ N. apply E; [discriminate|exact N].
Qed.
Lemma follow_rounds (F : nat -> list bez_edge) : (forall j, follow (F j) /\ F j <> [] /\ edge_end (last (F j) ([], [])) = edge_start (hd ([], []) (F (S j)))) ->
  forall N s, follow (flat_map F (seq s N)).
Proof.
  intros H. induction N as [|N IH]; intros s; [exact I|]. cbn [seq flat_map]. destruct (H s) as (A & B & C). apply follow_app; [exact A|apply IH|].
  intros _ N0. destruct N as [|N]; [contradiction|]. cbn [seq flat_map]. destruct (H (S s)) as (_ & B' & _). rewrite C. destruct (F (S s)); [contradiction|reflexivity].
Qed.
Lemma rounds_loop (F : nat -> list bez_edge) N : (0 < N)%nat ->
  (forall j, follow (F j) /\ F j <> [] /\ edge_end (last (F j) ([], [])) = edge_start (hd ([], []) (F (S j)))) -> F N = F 0%nat -> loop (flat_map F (seq 0 N)).
Proof.
  intros P H E. destruct N as [|N]; [lia|]. destruct (H 0%nat) as (_ & B0 & _). destruct (H N) as (_ & B & C). split; [|split].
  - cbn [seq flat_map]. destruct (F 0%nat); [contradiction|discriminate].
  - apply follow_rounds, H.
  - assert (L : forall a, last (a ++ F N) ([], []) = last (F N) ([], [])).
    { induction a as [|x a IH]; [reflexivity|]. cbn [app]. rewrite <- IH. destruct (a ++ F N) eqn:Q; [|reflexivity]. apply app_eq_nil in Q. destruct Q. contradiction. }
    rewrite seq_S, flat_map_app. cbn [flat_map Nat.add]. rewrite app_nil_r, L, C, E. destruct N as [|N]; [reflexivity|]. cbn [seq flat_map]. destruct (F 0%nat); [contradiction|reflexivity].
Qed.

(** ** The tube *)
Section Tube.
  Variables (sv : solver) (fs : fsolver) (ts : tsolver) (mid : profile -> R) (optC : curve -> arr2 -> arr1) (optS : arr3 -> arr1).
  Variables (h : hgear) (n : Z) (gm lo hi td ta : R) (nhz nv : nat) (r : R).
  Hypothesis HU : cuttable sv ts (h_gear h) n gm lo hi td ta.
  Hypotheses (Hz : (2 <= nhz)%nat) (Hv : (2 <= nv)%nat).
  Let g := h_gear h.
  Let zs := k_zvals (ig_core g).
  Hypothesis LZ : (2 <= length zs)%nat.
  Let zs' := extend_zvals r zs.
  Let tw := n_z_tweens nv 3.
  Let prof := section_at sv fs ts mid h.
  Let trf := section_trf h.
  Let pitch := 2 * PI / IZR n.
  Let P := fun x => bevel_pt (IZR n / 2) gm (ip_alpha (ig_in g)) (ig_pia g 0) x.
  Let Sl := slant (IZR n / 2) gm.
  Let apex := V 0 0 (IZR n / 2 / tan gm).

  Lemma tube_sections : exists cp, gear_section sv fs ts mid h 0 = Ok cp /\ regular_section cp (section_trf h 0) pitch.
  Proof. destruct (cut_section sv fs ts mid h n gm lo hi td ta HU) as (cp & a & b & E & RS & _). exists cp. split; assumption. Qed.
  Lemma tube_gm : 0 < gm < PI / 2.
  Proof. exact (bt_g _ _ _ _ _ _ _ _ _ _ _ (cu_at _ _ _ _ _ _ _ _ _ HU)). Qed.
  Lemma tube_n : (0 < n)%Z /\ 1 <= IZR n /\ num_teeth_act (k_tooth (ig_core g)) = n /\ tp_pitch_angle (k_tooth (ig_core g)) = pitch.
  Proof.
    pose proof (cu_gear _ _ _ _ _ _ _ _ _ HU) as H. fold g in H. pose proof (bg_n _ _ _ H) as N. split; [exact N|].
    assert (N1 : 1 <= IZR n) by (apply IZR_le; lia). split; [exact N1|].
    rewrite (bg_core _ _ _ H). unfold with_trf, calc_params. cbn [k_tooth]. rewrite (bg_teeth _ _ _ H).
    unfold tp_make. destruct (Rlt_dec (IZR n) 0); [lra|]. unfold num_teeth_act, tp_pitch_angle. cbn [num_teeth num_cutout].
    split; [rewrite Rminus_0_r; apply floorZ_IZR|reflexivity].
  Qed.

  (** The slices are scaled towards the apex and turned about the axis. *)
  Lemma place_apex z q : vsub (place trf z q) apex = smul ((Sl - z) / Sl) (mapp (rotz (h_angle h z)) (vsub q apex)).
  Proof.
    pose proof (cu_gear _ _ _ _ _ _ _ _ _ HU) as H. fold g in H. pose proof tube_gm as G. destruct tube_n as (_ & N1 & _).
    pose proof (bevel_core g n gm z H) as K. cbv zeta in K. destruct K as (_ & _ & _ & _ & E5 & E6 & _ & _ & E8 & _).
    assert (KG : k_gamma (ig_core g) = gm) by (rewrite (bg_core _ _ _ H); cbn [with_trf calc_params k_gamma]; rewrite (bg_cone _ _ _ H); field).
    assert (SS : 0 < sin gm) by (apply sin_gt_0; lra). assert (CC : 0 < cos gm) by (apply cos_gt_0; lra).
    assert (SC : g_scale (k_slice (ig_core g) z) = (Sl - z) / Sl) by (rewrite E6; unfold Sl, slant; field; split; lra).
    assert (S0 : Sl <> 0) by (apply Rgt_not_eq, slant_pos; [lra|pose proof PI_RGT_0; lra]).
    assert (RT : IZR n / 2 / tan gm = Sl * cos gm) by (unfold Sl, slant, tan; field; split; lra).
    unfold place, trf, section_trf. rewrite apply_gear_transform_eq. fold g. cbv zeta. cbn [g_scale g_center g_orient g_angle]. rewrite SC. cbn [k_slice g_orient g_center]. rewrite KG, mapp_I.
    unfold apex. rewrite RT. generalize (h_angle h z). intros w. clear - S0. generalize dependent Sl. intros S S0. destruct q as [x y k]. unfold rotz. apply vec_eq; vec_simpl; field; exact S0.
  Qed.
  Lemma slant_pos' : 0 < Sl.
  Proof. destruct tube_n as (_ & N1 & _). apply slant_pos; [lra|pose proof PI_RGT_0; pose proof tube_gm; lra]. Qed.
  Lemma place_dist z q : norm (vsub q apex) = Sl -> norm (vsub (place trf z q) apex) = Rabs (Sl - z).
  Proof.
    intros D. pose proof slant_pos' as SP. rewrite place_apex, norm_smul. rewrite orthogonal_norm, D by apply rotation_rotz.
    unfold Rdiv. rewrite Rabs_mult, (Rabs_right (/ Sl)) by (apply Rgt_ge, Rinv_0_lt_compat, SP). field. lra.
  Qed.

  Lemma base_dist : norm (vsub (P td) apex) = Sl /\ norm (vsub (P ta) apex) = Sl /\ norm (vsub (flip (P td)) apex) = Sl /\ norm (vsub (flip (P ta)) apex) = Sl /\
    norm (vsub (turn (- pitch) (flip (P td))) apex) = Sl.
  Proof.
    pose proof tube_gm as G. destruct tube_n as (_ & N1 & _). destruct (cut_section sv fs ts mid h n gm lo hi td ta HU) as (cp & a & b & _ & _ & _ & C0 & C1).
    fold g in C0, C1. change (bevel_pt (IZR n / 2) gm (ip_alpha (ig_in g)) (ig_pia g 0) td) with (P td) in C0. change (bevel_pt (IZR n / 2) gm (ip_alpha (ig_in g)) (ig_pia g 0) ta) with (P ta) in C1.
    assert (F0 := flip_round (P td)). assert (F1 := flip_round (P ta)). assert (A0 := turn_round (- pitch) (flip (P td))).
    pose proof (cone_round _ _ _ _ (flip (P td)) ltac:(symmetry; apply F0) ltac:(symmetry; apply F0) C0) as D0.
    pose proof (cone_round _ _ _ _ (flip (P ta)) ltac:(symmetry; apply F1) ltac:(symmetry; apply F1) C1) as D1.
    pose proof (cone_round _ _ _ _ (turn (- pitch) (flip (P td))) ltac:(symmetry; apply A0) ltac:(symmetry; apply A0) D0) as D2.
    repeat split; eapply on_cone_dist; try eassumption; lra.
  Qed.

  (** The members of a converted section. *)
  Lemma tube_base : exists m1 m2 m3 m4 rest, let b := m1 :: m2 :: m3 :: m4 :: rest in
    chain_ok b /\ joints b /\ length rest = 3%nat /\ length (nb_knots b) = 8%nat /\
    (forall z, section_chain optC nhz 3 prof trf z = Ok (map (moved (place trf z)) b)) /\
    carries m1 (turn (- pitch) (flip (P td)), P td) /\ carries m2 (P td, P ta) /\ carries m3 (P ta, flip (P ta)) /\ carries m4 (flip (P ta), flip (P td)).
  Proof.
    destruct (cut_section sv fs ts mid h n gm lo hi td ta HU) as (cp & x & y & E & RS & RT & _).
    assert (CR := cu_crown _ _ _ _ _ _ _ _ _ HU).
    destruct (base_route sv fs ts mid optC h pitch nhz Hz CR tube_sections) as (b & OK & JT & LK & SC & FL).
    assert (P0 : section_at sv fs ts mid h 0 = cp) by (unfold section_at; rewrite E; reflexivity). rewrite P0, RT in FL. clear RT.
    inversion FL as [|m1 s1 b1 r1 C1 F1]; subst. inversion F1 as [|m2 s2 b2 r2 C2 F2]; subst. inversion F2 as [|m3 s3 b3 r3 C3 F3]; subst.
    inversion F3 as [|m4 s4 b4 r4 C4 F4]; subst.
    exists m1, m2, m3, m4, b4. cbv zeta. split; [exact OK|]. split; [exact JT|].
    assert (L : length b4 = 3%nat) by (clear - F4; inversion F4 as [|? ? ? ? _ G1]; subst; inversion G1 as [|? ? ? ? _ G2]; subst; inversion G2 as [|? ? ? ? _ G3]; subst; inversion G3; subst; reflexivity). split; [exact L|].
    split. { assert (KL : forall c k, length (knots_from k c) = S (length c)) by (induction c as [|z c IH]; intros k; cbn; [reflexivity|rewrite IH; reflexivity]).
             unfold nb_knots. rewrite KL. cbn [length]. rewrite L. reflexivity. }
    split; [exact SC|]. auto.
  Qed.

  (** One turn of the first four members of the section at [z]. *)
  Definition outline_of (ms : list (list vec * list R)) (z : R) : list bez_edge :=
    flat_map (fun j => map (fun m => spin (INR j * pitch) (moved (place trf z) m)) ms) (seq 0 (Z.to_nat n)).
  Lemma moved_start f m s : carries m s -> f ORIGIN = f ORIGIN -> fst m <> [] -> edge_start (moved f m) = f (fst s) /\ edge_end (moved f m) = f (snd s).
  Proof.
    intros (A & B & _) _ N. unfold edge_start, edge_end, moved. cbn [fst]. rewrite <- A, <- B. split; [destruct (fst m); [contradiction|reflexivity]|apply last_map, N].
  Qed.
  Lemma spin_start a e : edge_start (spin a e) = mapp (rotz a) (edge_start e) /\ edge_end (spin a e) = mapp (rotz a) (edge_end e).
  Proof. unfold edge_start, edge_end, spin. cbn [fst]. split; [apply hd_map_spin|apply last_map_spin]. Qed.
  Lemma apex_turn a q : norm (vsub (mapp (rotz a) q) apex) = norm (vsub q apex).
  Proof.
    rewrite <- (orthogonal_norm (rotz a) (vsub q apex)) by apply rotation_rotz. f_equal. unfold apex, rotz. destruct q. apply vec_eq; vec_simpl; ring.
  Qed.
  Lemma place_turn z a q : place trf z (mapp (rotz a) q) = mapp (rotz a) (place trf z q).
  Proof. unfold place. apply place_spin; unfold trf, section_trf; cbn; ring || reflexivity. Qed.

  Lemma outline_loop m1 m2 m3 m4 z : List.Forall member_ok [m1; m2; m3; m4] ->
    carries m1 (turn (- pitch) (flip (P td)), P td) -> carries m2 (P td, P ta) -> carries m3 (P ta, flip (P ta)) -> carries m4 (flip (P ta), flip (P td)) ->
    loop (outline_of [m1; m2; m3; m4] z) /\ length (outline_of [m1; m2; m3; m4] z) = (4 * Z.to_nat n)%nat /\
    forall e, In e (outline_of [m1; m2; m3; m4] z) -> norm (vsub (edge_start e) apex) = Rabs (Sl - z) /\ norm (vsub (edge_end e) apex) = Rabs (Sl - z).
  Proof.
    intros OK C1 C2 C3 C4. destruct tube_n as (NP & N1 & _). destruct base_dist as (D0 & D1 & D2 & D3 & D4).
    assert (NE : forall m, In m [m1; m2; m3; m4] -> fst m <> []).
    { intros m I E. rewrite List.Forall_forall in OK. destruct (OK m I) as [L _]. rewrite E in L. cbn in L. lia. }
    destruct (moved_start (place trf z) m1 _ C1 eq_refl (NE m1 ltac:(cbn; auto))) as (A1 & B1). destruct (moved_start (place trf z) m2 _ C2 eq_refl (NE m2 ltac:(cbn; auto))) as (A2 & B2).
    destruct (moved_start (place trf z) m3 _ C3 eq_refl (NE m3 ltac:(cbn; auto))) as (A3 & B3). destruct (moved_start (place trf z) m4 _ C4 eq_refl (NE m4 ltac:(cbn; auto))) as (A4 & B4).
    cbn [fst snd] in *. split; [|split].
    - apply rounds_loop.
      + lia.
      + intros j. cbn [map follow]. split; [|split; [discriminate|]].
        * rewrite !(proj1 (spin_start _ _)), !(proj2 (spin_start _ _)), A2, A3, A4, B1, B2, B3. auto.
        * cbn [last hd]. rewrite (proj1 (spin_start _ _)), (proj2 (spin_start _ _)), A1, B4, turn_rotz, place_turn, <- mapp_mmul, rotz_plus. do 2 f_equal. rewrite S_INR. ring.
      + apply map_ext. intros m. rewrite INR_IZR_INZ, Z2Nat.id by lia. unfold pitch. replace (IZR n * (2 * PI / IZR n)) with (2 * PI) by (field; lra).
        cbn [INR]. rewrite Rmult_0_l. unfold spin, rotz. rewrite sin_2PI, cos_2PI, sin_0, cos_0. reflexivity.
    - unfold outline_of. generalize (Z.to_nat n). intros N. assert (G : forall s, length (flat_map (fun j => map (fun m => spin (INR j * pitch) (moved (place trf z) m)) [m1; m2; m3; m4]) (seq s N)) = (4 * N)%nat).
      { induction N as [|N IH]; intros s; [reflexivity|]. cbn [seq flat_map]. rewrite app_length, IH. cbn [map length]. lia. }
      apply G.
    - intros e I. apply in_flat_map in I. destruct I as (j & _ & I). apply in_map_iff in I. destruct I as (m & <- & I).
      rewrite (proj1 (spin_start _ _)), (proj2 (spin_start _ _)), !apex_turn.
      cbn [In] in I. destruct I as [<-|[<-|[<-|[<-|[]]]]]; [rewrite A1, B1|rewrite A2, B2|rewrite A3, B3|rewrite A4, B4]; split; apply place_dist; assumption.
  Qed.

  Lemma made : forall zl, res_map (res_map (gear_section sv fs ts mid h)) zl = Ok (map (map prof) zl).
  Proof.
    intros zl. apply res_map_ok. intros l _. apply res_map_ok. intros z _.
    destruct (section_all sv fs ts mid h pitch (cu_crown _ _ _ _ _ _ _ _ _ HU) tube_sections z) as (E & E' & _).
    unfold prof. rewrite E. exact E'.
  Qed.
  Lemma cutting_eq data : side_surf_data optC optS nhz nv 3 prof trf zs' = Ok data ->
    cutting_faces sv fs ts mid optC optS h nhz nv r = (Ok (side_face_list n pitch zs data), h_with_zvals (h_with_zvals h zs') zs).
  Proof.
    intros E. destruct tube_n as (_ & _ & NA & PI'). unfold cutting_faces. cbv zeta. fold g zs zs'. unfold to_nurbs. cbn [h_with_zvals h_gear ig_core with_zvals k_zvals].
    change (gear_section sv fs ts mid (h_with_zvals h zs')) with (gear_section sv fs ts mid h). rewrite made. cbn [bind].
    change (section_at sv fs ts mid (h_with_zvals h zs')) with prof. change (section_trf (h_with_zvals h zs')) with trf. fold g. rewrite NA, PI'.
    change (mkH (mkIG (ig_in g) (with_zvals (ig_core g) zs')) (h_angle h)) with (h_with_zvals h zs').
    change (section_at sv fs ts mid (h_with_zvals h zs')) with prof. change (section_trf (h_with_zvals h zs')) with trf. rewrite E. reflexivity.
  Qed.

  Lemma tube : tw = 2%nat \/ (forall hs, In hs (z_stacks zs' tw) -> let st := map (chain_at optC nhz 3 prof trf) hs in
      converged (stack_target st) tw (length (nb_points (chain_at optC nhz 3 prof trf 0))) nv (optS (stack_target st))) ->
    let d := last zs 0 - hd 0 zs in
    exists faces, fst (cutting_faces sv fs ts mid optC optS h nhz nv r) = Ok faces /\ length faces = (Z.to_nat n * ((length zs - 1) * 4))%nat /\
    exists pairs lower upper, Permutation (flat_map face_edges faces) (pairs ++ pairs ++ map Bez lower ++ map Bez upper) /\
      loop lower /\ loop upper /\ length lower = (4 * Z.to_nat n)%nat /\ length upper = (4 * Z.to_nat n)%nat /\
      (forall e, In e lower -> norm (vsub (edge_start e) apex) = Rabs (Sl - (hd 0 zs - r * d)) /\ norm (vsub (edge_end e) apex) = Rabs (Sl - (hd 0 zs - r * d))) /\
      (forall e, In e upper -> norm (vsub (edge_start e) apex) = Rabs (Sl - (last zs 0 + r * d)) /\ norm (vsub (edge_end e) apex) = Rabs (Sl - (last zs 0 + r * d))).
  Proof.
    intros HC d. destruct tube_n as (NP & N1 & NA & _). destruct (extend_facts r zs LZ) as (LE & Z0 & Z1 & _). fold zs' d in LE, Z0, Z1.
    destruct tube_base as (m1 & m2 & m3 & m4 & rest & OK & JT & LR & LK & SC & C1 & C2 & C3 & C4). cbv zeta in *. set (b := m1 :: m2 :: m3 :: m4 :: rest) in *.
    assert (M4 : List.Forall member_ok [m1; m2; m3; m4]).
    { destruct OK as (_ & F). unfold b in F. clear - F. inversion F as [|? ? K1 F1]; subst. inversion F1 as [|? ? K2 F2]; subst. inversion F2 as [|? ? K3 F3]; subst. inversion F3 as [|? ? K4 F4]; subst.
      constructor; [exact K1|]. constructor; [exact K2|]. constructor; [exact K3|]. constructor; [exact K4|constructor]. }
    set (K := nb_knots b).
    assert (KN : forall z, nb_knots (map (moved (place trf z)) b) = K) by (intros z; apply knots_moved).
    assert (LN : S (last K 0%nat) = length (nb_points (chain_at optC nhz 3 prof trf 0))).
    { unfold chain_at. rewrite SC, points_moved, map_length by exact OK.
      destruct (C40_knots b OK) as (rr & ER & LRR & AR). destruct (weights_length b OK) as [_ L1].
      unfold K. rewrite ER. rewrite <- (ascending_last rr 0 _ AR). lia. }
    destruct (sides_whole optC optS nhz nv 3 prof trf n pitch zs' K Hz ltac:(lra) Hv ltac:(rewrite LE; exact LZ) NP eq_refl) as (data & SD & PLR & PB & PT & LEN).
    - intros z _. split.
      + destruct (section_all sv fs ts mid h pitch (cu_crown _ _ _ _ _ _ _ _ _ HU) tube_sections z) as (E & _ & RS). unfold prof. rewrite E. exact RS.
      + intros c E. rewrite SC in E. apply Ok_inj in E. rewrite <- E. apply KN.
    - destruct HC as [HC|HC]; [left; exact HC|right]. split; [apply tweens_many, Hv|]. intros hs I. rewrite LN. apply HC, I.
    - assert (SF : side_face_list n pitch zs' data = side_face_list n pitch zs data) by (unfold side_face_list; rewrite LE; reflexivity). rewrite SF in *. clear SF.
      set (faces := side_face_list n pitch zs data) in *. exists faces. rewrite (cutting_eq data SD). split; [reflexivity|].
      split; [rewrite LEN, LE; unfold K; rewrite LK; reflexivity|].
      assert (BU : forall k, bundle optC nhz 3 prof trf n pitch zs' K k = map Bez (outline_of [m1; m2; m3; m4] (nth k zs' 0))).
      { intros k. unfold bundle, outline_of. rewrite map_flat_map. apply flat_map_ext. intros j. unfold chain_at. rewrite SC.
        replace (length K - 4)%nat with 4%nat by (unfold K; rewrite LK; reflexivity). unfold b. cbn [map firstn]. reflexivity. }
      set (N := (length zs - 1)%nat) in *. rewrite LE in PB, PT. fold N in PB, PT.
      exists (map (fun f => Bez (left_edge f)) faces ++ flat_map (bundle optC nhz 3 prof trf n pitch zs' K) (seq 1 (N - 1))), (outline_of [m1; m2; m3; m4] (nth 0 zs' 0)),
        (outline_of [m1; m2; m3; m4] (nth N zs' 0)).
      destruct (outline_loop m1 m2 m3 m4 (nth 0 zs' 0) M4 C1 C2 C3 C4) as (L0 & L1 & L2). destruct (outline_loop m1 m2 m3 m4 (nth N zs' 0) M4 C1 C2 C3 C4) as (U0 & U1 & U2).
      rewrite <- Z0, <- Z1. split; [|exact (conj L0 (conj U0 (conj L1 (conj U1 (conj L2 U2)))))].
      rewrite face_edges_perm, <- PLR, PB, PT, <- !BU.
      set (F := bundle optC nhz 3 prof trf n pitch zs' K). set (X := map (fun f => Bez (left_edge f)) faces).
      assert (B0 : flat_map F (seq 0 N) = F 0%nat ++ flat_map F (seq 1 (N - 1))) by (destruct N as [|N'] eqn:EN; [unfold N in EN; lia|]; cbn [seq flat_map Nat.sub]; rewrite Nat.sub_0_r; reflexivity).
      assert (B1 : flat_map (fun k => F (S k)) (seq 0 N) = flat_map F (seq 1 (N - 1)) ++ F N).
      { destruct N as [|N'] eqn:EN; [unfold N in EN; lia|]. rewrite seq_S, flat_map_app. cbn [flat_map Nat.add Nat.sub]. rewrite app_nil_r, Nat.sub_0_r. f_equal.
        rewrite <- seq_shift. rewrite !flat_map_concat_map, map_map. reflexivity. }
      rewrite B0, B1. set (Y := flat_map F (seq 1 (N - 1))). clear. rewrite <- !app_assoc. apply Permutation_app_head.
      transitivity (X ++ Y ++ F 0%nat ++ Y ++ F N); [apply Permutation_app_head; apply Permutation_app_swap_app|].
      transitivity (X ++ Y ++ Y ++ F 0%nat ++ F N); [do 2 apply Permutation_app_head; apply Permutation_app_swap_app|].
      rewrite (Permutation_app_swap_app X Y). reflexivity.
  Qed.
End Tube.

(** The tooth surfaces of a bevel gear without crowning, with any number of layers: four faces for every tooth and segment; every
    edge belongs to two of them but for two closed rings of edges.  The ends of the edges of these rings lie on spheres about the
    apex: those of one outside the blank's larger sphere, those of the other inside its smaller one. *)
Theorem C117_tube sv fs ts mid optC optS h n gm lo hi td ta nhz nv r : cuttable sv ts (h_gear h) n gm lo hi td ta ->
  (2 <= nhz)%nat -> (2 <= nv)%nat ->
  let k := ig_core (h_gear h) in let zs := k_zvals k in let tw := n_z_tweens nv 3 in
  let prof := section_at sv fs ts mid h in let trf := section_trf h in
  (2 <= length zs)%nat ->
  tw = 2%nat \/ (forall hs, In hs (z_stacks (extend_zvals r zs) tw) -> let st := map (chain_at optC nhz 3 prof trf) hs in
    converged (stack_target st) tw (length (nb_points (chain_at optC nhz 3 prof trf 0))) nv (optS (stack_target st))) ->
  let d := last zs 0 - hd 0 zs in 0 < r * d -> hd 0 zs < slant (IZR n / 2) gm -> last zs 0 + r * d < slant (IZR n / 2) gm ->
  exists faces, fst (cutting_faces sv fs ts mid optC optS h nhz nv r) = Ok faces /\ length faces = (Z.to_nat n * ((length zs - 1) * 4))%nat /\
  exists pairs lower upper, Permutation (flat_map face_edges faces) (pairs ++ pairs ++ map Bez lower ++ map Bez upper) /\
    loop lower /\ loop upper /\ length lower = (4 * Z.to_nat n)%nat /\ length upper = (4 * Z.to_nat n)%nat /\
    let '(c0, r0) := k_sphere_data k g_default (hd 0 zs) in let '(c1, r1) := k_sphere_data k g_default (last zs 0) in
    (forall e, In e lower -> norm (vsub (edge_start e) c0) = r0 + r * d /\ norm (vsub (edge_end e) c0) = r0 + r * d) /\
    (forall e, In e upper -> norm (vsub (edge_start e) c1) = r1 - r * d /\ norm (vsub (edge_end e) c1) = r1 - r * d).
Proof.
  intros HU Hz Hv k zs tw prof trf LZ HC d RD ZS ZL.
  destruct (tube sv fs ts mid optC optS h n gm lo hi td ta nhz nv r HU Hz Hv LZ HC) as (faces & EF & LF & pairs & lower & upper & PE & L0 & U0 & LL & LU & DL & DU).
  exists faces. split; [exact EF|]. split; [exact LF|]. exists pairs, lower, upper. repeat (split; [assumption|]).
  unfold k. rewrite !(sphere_data_default _ n gm _ (cu_gear _ _ _ _ _ _ _ _ _ HU) (tube_gm _ _ _ _ _ _ _ _ _ HU)).
  fold k zs d in DL, DU. change (k_zvals k) with zs in DL, DU. split; intros e I; [specialize (DL e I)|specialize (DU e I)].
  - destruct DL as (-> & ->). rewrite !Rabs_right by (fold d; lra). fold d. split; ring.
  - destruct DU as (-> & ->). rewrite !Rabs_right by (fold d; lra). fold d. split; ring.
Qed.

(** ** Straight teeth *)
(** The point [p] moved towards the point [a], [k] times as far away. *)
Definition toward (a : vec) (k : R) (p : vec) : vec := vadd a (smul k (vsub p a)).
Lemma cone_surface u v a k row ws : length row = length ws -> ws <> [] -> bezier v ws <> 0 ->
  nurbezier_surface u v [row; map (toward a k) row] [ws; ws] = toward a (1 - u + u * k) (nurbezier v row ws).
Proof.
  intros E N W. unfold nurbezier_surface. cbn [combine map fst snd].
  assert (W' : bezierdc v ws <> 0) by (rewrite C15_decasteljau_is_bernstein_weights by exact N; exact W).
  assert (M : forall p, toward a k p = vadd (mapp (M k 0 0 0 k 0 0 0 k) p) (smul (1 - k) a)) by (intros [x y z]; destruct a; unfold toward; apply vec_eq; vec_simpl; ring).
  rewrite (map_ext _ _ M), nurbezier_affine by assumption. rewrite <- M.
  change [bezier v ws; bezier v ws] with (repeat (bezier v ws) (length [nurbezier v row ws; toward a k (nurbezier v row ws)])).
  rewrite C17_equal_weights by (try exact W; discriminate). unfold bezierdc. cbn. unfold lerp2, toward. cbn [ladd lsc Lin_vec].
  destruct (nurbezier v row ws), a. apply vec_eq; vec_simpl; ring.
Qed.

(** The builder's choice of layers for straight teeth. *)
Theorem C117_default sv fs ts mid optC optS h : ip_crown (ig_in (h_gear h)) = 0 -> ip_helix (ig_in (h_gear h)) = 0 ->
  build_bevel sv fs ts mid optC optS h = cutting_faces sv fs ts mid optC optS h 4 2 (1 / 100).
Proof. intros C H. unfold build_bevel. destruct (two_layers h C H) as [-> _]. reflexivity. Qed.

Section Lines.
  Variables (sv : solver) (fs : fsolver) (ts : tsolver) (mid : profile -> R) (optC : curve -> arr2 -> arr1) (optS : arr3 -> arr1).
  Variables (h : hgear) (n : Z) (gm lo hi td ta : R) (nhz : nat) (r z0 z1 : R).
  Hypothesis HU : cuttable sv ts (h_gear h) n gm lo hi td ta.
  Hypothesis Hz : (2 <= nhz)%nat.
  Hypothesis EZ : k_zvals (ig_core (h_gear h)) = [z0; z1].
  Hypothesis AN : forall z, h_angle h z = 0.
  Let g := h_gear h.
  Let trf := section_trf h.
  Let pitch := 2 * PI / IZR n.
  Let P := fun x => bevel_pt (IZR n / 2) gm (ip_alpha (ig_in g)) (ig_pia g 0) x.
  Let Sl := slant (IZR n / 2) gm.
  Let apex := V 0 0 (IZR n / 2 / tan gm).
  Let e0 := z0 - r * (z1 - z0).
  Let e1 := z1 + r * (z1 - z0).
  Hypothesis E0 : e0 <> Sl.

  Lemma lines_faces : exists m1 m2 m3 m4, List.Forall member_ok [m1; m2; m3; m4] /\
    fst (cutting_faces sv fs ts mid optC optS h nhz 2 r) =
      Ok (flat_map (fun j => map (fun m => turn_face (pitch * INR j * 180 / PI) ([map (place trf e0) (fst m); map (place trf e1) (fst m)], [snd m; snd m])) [m1; m2; m3; m4])
            (seq 0 (Z.to_nat n))) /\
    carries m1 (turn (- pitch) (flip (P td)), P td) /\ carries m2 (P td, P ta) /\ carries m3 (P ta, flip (P ta)) /\ carries m4 (flip (P ta), flip (P td)).
  Proof.
    assert (TW : n_z_tweens 2 3 = 2%nat).
    { unfold n_z_tweens. replace ((INR 2 - 2) * 3) with (IZR 0) by (cbn; ring). unfold ceilZ. rewrite <- opp_IZR, floorZ_IZR. reflexivity. }
    destruct (tube_base sv fs ts mid optC h n gm lo hi td ta nhz HU Hz) as (m1 & m2 & m3 & m4 & rest & OK & JT & LR & LK & SC & C1 & C2 & C3 & C4). cbv zeta in *.
    set (b := m1 :: m2 :: m3 :: m4 :: rest) in *. fold trf in SC.
    exists m1, m2, m3, m4. split; [|split].
    - destruct OK as (_ & F). unfold b in F. clear - F. inversion F as [|? ? K1 F1]; subst. inversion F1 as [|? ? K2 F2]; subst. inversion F2 as [|? ? K3 F3]; subst. inversion F3 as [|? ? K4 F4]; subst.
      constructor; [exact K1|]. constructor; [exact K2|]. constructor; [exact K3|]. constructor; [exact K4|constructor].
    - assert (EX : extend_zvals r (k_zvals (ig_core (h_gear h))) = [e0; e1]) by (rewrite EZ; reflexivity).
      assert (LZ : (2 <= length (k_zvals (ig_core (h_gear h))))%nat) by (rewrite EZ; cbn; lia).
      assert (SD : side_surf_data optC optS nhz 2 3 (section_at sv fs ts mid h) trf (extend_zvals r (k_zvals (ig_core (h_gear h)))) =
        Ok [([map (place trf e0) (nb_points b); map (place trf e1) (nb_points b)], [nb_weights b; nb_weights b], nb_knots b)]).
      { rewrite EX. unfold side_surf_data. rewrite TW. unfold z_stacks. cbn [length Nat.sub seq map nth].
        assert (LI : linspace e0 e1 2 = [e0; e1]). { unfold linspace. cbn [seq map Nat.sub]. f_equal; [cbn; ring|]. f_equal. cbn. field. }
        rewrite LI. cbn [res_map]. rewrite !SC. cbn [bind]. unfold side_surface. rewrite TW. cbn [Nat.eqb]. unfold side_surface_two_layers. cbn [map equal_lengths forallb].
        change (moved (place trf ?z) m1 :: moved (place trf ?z) m2 :: moved (place trf ?z) m3 :: moved (place trf ?z) m4 :: map (moved (place trf ?z)) rest) with (map (moved (place trf z)) b).
        rewrite !points_moved, !map_length, Nat.eqb_refl by exact OK. cbn [andb bind hd last]. rewrite !weights_moved. unfold nb_knots at 1. rewrite knots_moved. fold (nb_knots b). reflexivity. }
      rewrite (cutting_eq sv fs ts mid optC optS h n gm lo hi td ta nhz 2 r HU Hz (le_n 2) LZ _ SD).
      cbn [fst]. rewrite EZ. f_equal. unfold side_face_list. cbn [length Nat.sub seq flat_map nth]. fold pitch. apply flat_map_ext. intros j. rewrite app_nil_r.
      rewrite wall_patches, (C40_read_split b OK JT). unfold kept. rewrite map_length, firstn_map, map_map. unfold b. cbn [length]. rewrite LR. reflexivity.
    - auto.
  Qed.
  Lemma turned_rows j q : mapp (rotz (INR j * pitch)) (place trf e1 q) = toward apex ((Sl - e1) / (Sl - e0)) (mapp (rotz (INR j * pitch)) (place trf e0 q)).
  Proof.
    assert (LZ : (2 <= length (k_zvals (ig_core (h_gear h))))%nat) by (rewrite EZ; cbn; lia).
    assert (SP : 0 < Sl) by exact (slant_pos' sv ts h n gm lo hi td ta nhz 2 HU Hz (le_n 2) LZ).
    assert (A : forall z, vsub (place trf z q) apex = smul ((Sl - z) / Sl) (vsub q apex)).
    { intros z. etransitivity; [exact (place_apex sv ts h n gm lo hi td ta nhz 2 HU Hz (le_n 2) LZ z q)|]. rewrite AN, rotz_0, mapp_I. reflexivity. }
    assert (B : forall z, place trf z q = vadd apex (smul ((Sl - z) / Sl) (vsub q apex))).
    { intros z. rewrite <- A. destruct (place trf z q), apex. apply vec_eq; vec_simpl; ring. }
    rewrite !B. assert (Q : (Sl - e1) / Sl = (Sl - e1) / (Sl - e0) * ((Sl - e0) / Sl)) by (field; split; lra). rewrite Q.
    set (k := (Sl - e1) / (Sl - e0)). set (t := (Sl - e0) / Sl). unfold toward, apex. destruct q. clear. apply vec_eq; vec_simpl; ring.
  Qed.
  Lemma turned_patch j m : turn_face (pitch * INR j * 180 / PI) ([map (place trf e0) (fst m); map (place trf e1) (fst m)], [snd m; snd m]) =
    ([map (fun q => mapp (rotz (INR j * pitch)) (place trf e0 q)) (fst m);
      map (toward apex ((Sl - e1) / (Sl - e0))) (map (fun q => mapp (rotz (INR j * pitch)) (place trf e0 q)) (fst m))], [snd m; snd m]).
  Proof.
    unfold turn_face. cbn [fst snd map]. pose proof PI_RGT_0.
    assert (E : to_rad (pitch * INR j * 180 / PI) = INR j * pitch) by (unfold to_rad; field; lra). rewrite E.
    f_equal. f_equal; [|f_equal]; rewrite !map_map; apply map_ext; intros q; [reflexivity|apply turned_rows].
  Qed.
End Lines.

(** The faces that cut a straight bevel gear out of its blank are made of straight lines through the apex of the pitch cone,
    and every tooth has one for the gap before it, one for each flank and one for its land, between the spheres around the
    apex that lie beyond the blank on both sides. *)
Theorem C117_lines sv fs ts mid optC optS h n gm lo hi td ta nhz r z0 z1 : cuttable sv ts (h_gear h) n gm lo hi td ta -> (2 <= nhz)%nat ->
  k_zvals (ig_core (h_gear h)) = [z0; z1] -> (forall z, h_angle h z = 0) ->
  let S := slant (IZR n / 2) gm in let apex := V 0 0 (IZR n / 2 / tan gm) in
  let e0 := z0 - r * (z1 - z0) in let e1 := z1 + r * (z1 - z0) in
  let P := fun x => bevel_pt (IZR n / 2) gm (ip_alpha (ig_in (h_gear h))) (ig_pia (h_gear h) 0) x in
  let pitch := 2 * PI / IZR n in
  let at_ := fun j z q => turn (INR j * pitch) (toward apex ((S - z) / S) q) in
  e0 <> S ->
  exists faces, fst (cutting_faces sv fs ts mid optC optS h nhz 2 r) = Ok faces /\ length faces = (4 * Z.to_nat n)%nat /\
  (forall f u v, In f faces -> bezier v (hd [] (snd f)) <> 0 ->
     nurbezier_surface u v (fst f) (snd f) = toward apex (1 - u + u * ((S - e1) / (S - e0))) (nurbezier_surface 0 v (fst f) (snd f))) /\
  (forall j s, (j < Z.to_nat n)%nat ->
     In s [(turn (- pitch) (flip (P td)), P td); (P td, P ta); (P ta, flip (P ta)); (flip (P ta), flip (P td))] ->
     exists f, In f faces /\
       nurbezier_surface 0 0 (fst f) (snd f) = at_ j e0 (fst s) /\ nurbezier_surface 0 1 (fst f) (snd f) = at_ j e0 (snd s) /\
       nurbezier_surface 1 0 (fst f) (snd f) = at_ j e1 (fst s) /\ nurbezier_surface 1 1 (fst f) (snd f) = at_ j e1 (snd s)).
Proof.
  intros HU Hz EZ AN S apex e0 e1 P pitch at_ E0. set (k := (S - e1) / (S - e0)).
  assert (LZ : (2 <= length (k_zvals (ig_core (h_gear h))))%nat) by (rewrite EZ; cbn; lia).
  assert (SP : 0 < S) by exact (slant_pos' sv ts h n gm lo hi td ta nhz 2 HU Hz (le_n 2) LZ).
  destruct (lines_faces sv fs ts mid optC optS h n gm lo hi td ta nhz r z0 z1 HU Hz EZ) as (m1 & m2 & m3 & m4 & OK & EF & C1 & C2 & C3 & C4).
  assert (TP : forall j m, turn_face (2 * PI / IZR n * INR j * 180 / PI) ([map (place (section_trf h) (z0 - r * (z1 - z0))) (fst m); map (place (section_trf h) (z1 + r * (z1 - z0))) (fst m)], [snd m; snd m]) =
    ([map (fun q => mapp (rotz (INR j * pitch)) (place (section_trf h) e0 q)) (fst m);
      map (toward apex k) (map (fun q => mapp (rotz (INR j * pitch)) (place (section_trf h) e0 q)) (fst m))], [snd m; snd m])).
  { intros j m. exact (turned_patch sv ts h n gm lo hi td ta nhz r z0 z1 HU Hz EZ AN E0 j m). }
  eexists. split; [exact EF|].
  assert (LM : forall (l : list (list vec * list R)) (F : nat -> list vec * list R -> face) N, length (flat_map (fun j => map (F j) l) (seq 0 N)) = (length l * N)%nat).
  { intros l F N. generalize 0%nat as a. induction N as [|N IH]; intros a; cbn [seq flat_map]; [cbn; lia|]. rewrite app_length, map_length, IH. lia. }
  split; [rewrite (LM [m1; m2; m3; m4]); reflexivity|].
  assert (MO : forall m, In m [m1; m2; m3; m4] -> length (fst m) = length (snd m) /\ snd m <> [] /\ fst m <> []).
  { intros m I. apply List.Forall_forall with (x := m) in OK; [|exact I]. destruct OK as [O1 O2]. repeat split; [congruence| |]; intros Z; rewrite Z in *; cbn in *; lia. }
  split.
  - intros f u v I W. apply in_flat_map in I. destruct I as (j & _ & I). apply in_map_iff in I. destruct I as (m & <- & I). destruct (MO m I) as (L1 & L2 & L3).
    rewrite TP in W |- *. cbn [fst snd hd] in W |- *. rewrite !cone_surface by (try rewrite map_length; assumption).
    set (q := nurbezier v _ _). unfold toward. destruct q, apex. clear. apply vec_eq; vec_simpl; ring.
  - intros j s J I.
    assert (M : exists m, In m [m1; m2; m3; m4] /\ carries m s).
    { destruct I as [<-|[<-|[<-|[<-|[]]]]]; [exists m1|exists m2|exists m3|exists m4]; (split; [cbn; tauto|assumption]). }
    destruct M as (m & IM & CA). destruct (MO m IM) as (L1 & L2 & L3). destruct CA as (A1 & A2 & A3 & A4).
    eexists. split.
    { apply in_flat_map. exists j. split; [apply in_seq; lia|]. apply in_map_iff. exists m. split; [reflexivity|exact IM]. }
    rewrite TP. cbn [fst snd].
    assert (W0 : bezier 0 (snd m) <> 0) by (rewrite <- C15_decasteljau_is_bernstein_weights by exact L2; rewrite bezierdc_R_0 by exact L2; rewrite A3; lra).
    assert (W1 : bezier 1 (snd m) <> 0) by (rewrite <- C15_decasteljau_is_bernstein_weights by exact L2; rewrite bezierdc_R_1 by exact L2; rewrite A4; lra).
    rewrite !cone_surface by (try rewrite map_length; assumption).
    rewrite C17_starts_at_first by (try (rewrite map_length; assumption); try assumption; rewrite A3; lra).
    rewrite C17_ends_at_last by (try (rewrite map_length; assumption); try assumption; rewrite A4; lra).
    set (F := fun q => mapp (rotz (INR j * pitch)) (place (section_trf h) e0 q)).
    assert (HD : hd ORIGIN (map F (fst m)) = F (fst s)) by (destruct (fst m) as [|x l]; [contradiction|]; cbn in A1 |- *; rewrite A1; reflexivity).
    assert (LA : last (map F (fst m)) ORIGIN = F (snd s)) by (rewrite (last_map F (fst m) ORIGIN ORIGIN L3), A2; reflexivity).
    rewrite HD, LA.
    assert (PL : forall z q, mapp (rotz (INR j * pitch)) (place (section_trf h) z q) = at_ j z q).
    { intros z q. unfold at_. rewrite turn_rotz. f_equal.
      pose proof (place_apex sv ts h n gm lo hi td ta nhz 2 HU Hz (le_n 2) LZ z q) as A. fold apex S in A. rewrite AN, rotz_0, mapp_I in A.
      unfold toward. rewrite <- A. destruct (place (section_trf h) z q), apex. clear. apply vec_eq; vec_simpl; ring. }
    assert (T1 : forall q, toward apex (1 - 0 + 0 * k) q = q) by (intros q; unfold toward; destruct q, apex; clear; apply vec_eq; vec_simpl; ring).
    rewrite !T1.
    assert (T2 : forall q, toward apex (1 - 1 + 1 * k) (F q) = at_ j e1 q).
    { intros q. rewrite <- PL. unfold F. replace (1 - 1 + 1 * k) with k by ring. symmetry. exact (turned_rows sv ts h n gm lo hi td ta nhz r z0 z1 HU Hz EZ AN E0 j q). }
    rewrite !T2. unfold F. rewrite !PL. auto.
Qed.

(** ** The gear after the part is built *)
Lemma h_eta h : h_with_zvals h (k_zvals (ig_core (h_gear h))) = h.
Proof. destruct h as [[i k] a]. destruct k. reflexivity. Qed.
(** Building the part of a bevel gear leaves the gear as it was. *)
Theorem C118_restored sv fs ts mid optC optS h nhz nv r faces h' :
  cutting_faces sv fs ts mid optC optS h nhz nv r = (Ok faces, h') -> h' = h.
Proof.
  unfold cutting_faces. cbv zeta. destruct (to_nurbs sv fs ts mid optC optS (h_with_zvals h (extend_zvals r (k_zvals (ig_core (h_gear h))))) nhz nv) as [data|e] eqn:E; intros K.
  - injection K as _ <-. etransitivity; [|apply h_eta]. reflexivity.
  - discriminate K.
Qed.
(** A build that raises leaves the gear longer at both ends, and everything else as it was. *)
Theorem C118_failed sv fs ts mid optC optS h nhz nv r e h' : (2 <= length (k_zvals (ig_core (h_gear h))))%nat ->
  cutting_faces sv fs ts mid optC optS h nhz nv r = (Err e, h') ->
  let zs := k_zvals (ig_core (h_gear h)) in let zs' := k_zvals (ig_core (h_gear h')) in let d := last zs 0 - hd 0 zs in
  h = h_with_zvals h' zs /\ length zs' = length zs /\ hd 0 zs' = hd 0 zs - r * d /\ last zs' 0 = last zs 0 + r * d /\
  (forall i, (0 < i)%nat -> (S i < length zs)%nat -> nth i zs' 0 = nth i zs 0) /\ (h' = h <-> r * d = 0).
Proof.
  intros L K zs zs' d. unfold cutting_faces in K. cbv zeta in K.
  destruct (to_nurbs sv fs ts mid optC optS (h_with_zvals h (extend_zvals r (k_zvals (ig_core (h_gear h))))) nhz nv) as [data|e'] eqn:E; [discriminate K|].
  injection K as _ K. assert (EZ : zs' = extend_zvals r zs) by (unfold zs'; rewrite <- K; reflexivity).
  destruct (extend_facts r zs L) as (LE & H0 & H1 & HM). fold d in H0, H1.
  assert (L' : (2 <= length zs)%nat) by exact L.
  assert (HD : hd 0 zs' = hd 0 zs - r * d) by (rewrite EZ, <- H0; destruct (extend_zvals r zs); reflexivity).
  assert (LA : last zs' 0 = last zs 0 + r * d) by (rewrite EZ, <- H1, <- LE; apply last_nth; intros Z; rewrite Z in LE; cbn in LE; lia).
  split; [rewrite <- K; unfold zs; destruct h as [[i k] a]; destruct k; reflexivity|].
  split; [rewrite EZ; exact LE|]. split; [exact HD|]. split; [exact LA|]. split; [rewrite EZ; exact HM|]. split.
  - intros Q. unfold zs' in HD. rewrite Q in HD. fold zs in HD. lra.
  - intros Q. rewrite <- K. etransitivity; [|apply h_eta]. fold zs. rewrite <- EZ. f_equal.
    apply nth_ext with (d := 0) (d' := 0); [rewrite EZ; exact LE|]. intros i I. rewrite EZ in I |- *. rewrite LE in I.
    destruct i as [|i]; [rewrite H0; destruct zs; [cbn in L'; lia|cbn; cbn in Q; lra]|].
    destruct (Nat.eq_dec (S i) (length zs - 1)) as [EI|NI]; [|apply HM; lia].
    rewrite EI, H1. rewrite last_nth by (intros Z; rewrite Z in L'; cbn in L'; lia). lra.
Qed.
(** Each failed attempt makes the gear longer by the same factor. *)
Fixpoint attempts (build : hgear -> nat * nat -> res (list face) * hgear) (h : hgear) (args : list (nat * nat)) : Prop * hgear :=
  match args with
  | [] => (True, h)
  | a :: rest => let '(p, h') := attempts build (snd (build h a)) rest in ((exists e, fst (build h a) = Err e) /\ p, h')
  end.
Definition span (h : hgear) : R := last (k_zvals (ig_core (h_gear h))) 0 - hd 0 (k_zvals (ig_core (h_gear h))).
Theorem C118_retries sv fs ts mid optC optS r args : forall h, (2 <= length (k_zvals (ig_core (h_gear h))))%nat ->
  let tries := attempts (fun h a => cutting_faces sv fs ts mid optC optS h (fst a) (snd a) r) h args in
  fst tries -> span (snd tries) = (1 + 2 * r) ^ length args * span h.
Proof.
  induction args as [|a args IH]; intros h L; cbn [attempts length pow]; [intros _; cbn; ring|].
  destruct (cutting_faces sv fs ts mid optC optS h (fst a) (snd a) r) as [x h'] eqn:E. cbn [fst snd].
  destruct (attempts _ h' args) as [p h''] eqn:EA. cbn [fst snd]. intros [(e & ->) HP].
  destruct (C118_failed sv fs ts mid optC optS h (fst a) (snd a) r e h' L E) as (_ & L' & H0 & H1 & _).
  specialize (IH h'). cbv zeta in IH. rewrite EA in IH. cbn [fst snd] in IH. rewrite IH; [|rewrite L'; exact L|exact HP].
  assert (SD : span h' = (1 + 2 * r) * span h) by (unfold span; rewrite H0, H1; ring). rewrite SD. ring.
Qed.
(** Asking for fewer than two layers raises for every gear. *)
Theorem C118_one_layer sv fs ts mid optC optS h nhz nv r : (nv < 2)%nat -> (2 <= length (k_zvals (ig_core (h_gear h))))%nat ->
  fst (cutting_faces sv fs ts mid optC optS h nhz nv r) = Err ValueError.
Proof.
  intros Hv L.
  assert (TW : n_z_tweens nv 3 = 0%nat).
  { unfold n_z_tweens. replace ((INR nv - 2) * 3) with (IZR ((Z.of_nat nv - 2) * 3)) by (rewrite INR_IZR_INZ, mult_IZR, minus_IZR; ring).
    unfold ceilZ. rewrite <- opp_IZR, floorZ_IZR. lia. }
  unfold cutting_faces. cbv zeta. unfold to_nurbs. cbn [h_with_zvals h_gear ig_core with_zvals k_zvals]. rewrite TW.
  set (zs := extend_zvals r (k_zvals (ig_core (h_gear h)))). assert (LE : length zs = length (k_zvals (ig_core (h_gear h)))) by (apply extend_facts, L).
  assert (ZS : z_stacks zs 0 = repeat [] (length zs - 1)).
  { unfold z_stacks. generalize 0%nat at 2. induction (length zs - 1)%nat as [|m IH]; intros k; cbn [seq map repeat]; [reflexivity|]. f_equal. apply IH. }
  rewrite ZS.
  assert (RM : forall A B (F : list A -> res B) y m, F [] = Ok y -> res_map F (repeat [] m) = Ok (repeat y m)).
  { intros A B F y m EF. induction m as [|m IH]; [reflexivity|]. cbn [repeat res_map]. rewrite EF, IH. reflexivity. }
  rewrite (RM R (list cv_profile) (res_map (gear_section sv fs ts mid (h_with_zvals h zs))) [] _ eq_refl). cbn [bind]. unfold side_surf_data. rewrite TW, ZS. destruct (length zs - 1)%nat as [|m] eqn:EM; [lia|].
  cbn [repeat res_map bind]. unfold side_surface. rewrite TW. reflexivity.
Qed.
(** ** The twelve-tooth bevel gear of C111 *)
Lemma ex_bevel_core : ig_core ex_bevel_gear = calc_params ex_bevel_param.
Proof. unfold ex_bevel_gear, ig_new, ip_normalise. cbn [ex_bevel_param ip_teeth]. destruct (Rlt_dec 12 0); [lra|reflexivity]. Qed.
Lemma ex_bevel_zvals a : k_zvals (ig_core (h_gear (mkH ex_bevel_gear a))) = [0; 2 / 3].
Proof.
  cbn [h_gear]. rewrite ex_bevel_core. unfold calc_params. cbn [ex_bevel_param k_zvals ip_height ip_module ip_zanchor].
  f_equal; [field|]. f_equal. field.
Qed.
Lemma ex_cuttable a : exists sv ts, cuttable sv ts (h_gear (mkH ex_bevel_gear a)) 12 (PI / 4) (- ex_turn) 1 (- ex_turn) ex_turn.
Proof.
  destruct ex_bevel_everywhere as (sv & ts & E). destruct (E 0) as (BA & SE). destruct ex_bevel_made as (BG & PA & EI & HO). exists sv, ts. cbn [h_gear].
  destruct ex_bevel as (BT & SPC & LND). destruct (ex_bevel_wide 0) as (W1 & W2).
  constructor; try assumption; [rewrite EI; reflexivity|]. rewrite HO, EI. cbv zeta. cbn [ex_bevel_param ip_ded ip_shift].
  pose proof PI_RGT_0. pose proof ex_depth as DD. pose proof ex_slant as SL. replace (12 / 2) with 6 in * by field.
  pose proof (outside_external 12 (PI / 4) ltac:(lia) ltac:(lra)) as OE. split; [lra|].
  pose proof (bt_h _ _ _ _ _ _ _ _ _ _ _ BT) as BH. pose proof (bt_tip _ _ _ _ _ _ _ _ _ _ _ BT) as BTP.
  assert (SP : 0 < / slant 6 (PI / 4)) by (apply Rinv_0_lt_compat; lra).
  assert (DL : ex_hd / slant 6 (PI / 4) < 2 / slant 6 (PI / 4)) by (apply Rmult_lt_compat_r; lra).
  assert (HL : 0 < (ex_ha + ex_hd) * / slant 6 (PI / 4)) by (apply Rmult_lt_0_compat; lra).
  replace (ex_hd - 0) with ex_hd by ring. split.
  - unfold outside_angle, outside_depth. rewrite Rmin_left by lra. replace (12 / 2) with 6 by field. lra.
  - unfold Rdiv in *. lra.
Qed.
(** So the gear that a failed build leaves behind is not always the gear that was to be built. *)
Theorem C118_failed_refuted sv fs ts mid optC optS : ~ (forall h nhz nv e h', cutting_faces sv fs ts mid optC optS h nhz nv (1 / 100) = (Err e, h') -> h' = h).
Proof.
  intros ALL. set (h := mkH ex_bevel_gear (fun _ => 0)).
  assert (EZ : k_zvals (ig_core (h_gear h)) = [0; 2 / 3]) by apply ex_bevel_zvals. assert (L : (2 <= length (k_zvals (ig_core (h_gear h))))%nat) by (rewrite EZ; cbn; lia).
  pose proof (C118_one_layer sv fs ts mid optC optS h 4 1 (1 / 100) ltac:(lia) L) as F.
  destruct (cutting_faces sv fs ts mid optC optS h 4 1 (1 / 100)) as [y h'] eqn:E. cbn [fst] in F. rewrite F in E.
  pose proof (ALL h 4%nat 1%nat _ _ E) as Q. destruct (C118_failed _ _ _ _ _ _ _ _ _ _ _ _ L E) as (_ & _ & _ & _ & _ & I).
  apply I in Q. rewrite EZ in Q. cbn in Q. lra.
Qed.

Example C117_tube_example fs mid optC optS : exists sv ts faces, fst (cutting_faces sv fs ts mid optC optS (mkH ex_bevel_gear (fun z => z / 4)) 4 2 (1 / 100)) = Ok faces /\
  length faces = 48%nat /\ exists pairs lower upper, Permutation (flat_map face_edges faces) (pairs ++ pairs ++ map Bez lower ++ map Bez upper) /\
    loop lower /\ loop upper /\ length lower = 48%nat /\ length upper = 48%nat.
Proof.
  set (h := mkH ex_bevel_gear (fun z => z / 4)). destruct (ex_cuttable (fun z => z / 4)) as (sv & ts & CU). fold h in CU.
  assert (EZ : k_zvals (ig_core (h_gear h)) = [0; 2 / 3]) by apply ex_bevel_zvals. pose proof ex_slant as SL.
  assert (TW : n_z_tweens 2 3 = 2%nat).
  { unfold n_z_tweens. replace ((INR 2 - 2) * 3) with (IZR 0) by (cbn; ring). unfold ceilZ. rewrite <- opp_IZR, floorZ_IZR. reflexivity. }
  pose proof (C117_tube sv fs ts mid optC optS h 12 (PI / 4) _ _ _ _ 4 2 (1 / 100) CU ltac:(lia) (le_n 2)) as T. cbv zeta in T. rewrite EZ in T.
  destruct (T ltac:(cbn; lia) (or_introl TW) ltac:(cbn; lra) ltac:(cbn; lra) ltac:(cbn; lra)) as (faces & EF & LF & pairs & lower & upper & PE & L0 & U0 & LL & LU & _).
  exists sv, ts, faces. split; [exact EF|]. split; [exact LF|]. exists pairs, lower, upper. repeat (split; [assumption|]). assumption.
Qed.
Example C117_default_example sv fs ts mid optC optS :
  build_bevel sv fs ts mid optC optS (mkH ex_bevel_gear (fun _ => 0)) = cutting_faces sv fs ts mid optC optS (mkH ex_bevel_gear (fun _ => 0)) 4 2 (1 / 100).
Proof. destruct ex_bevel_made as (_ & _ & EI & _). apply C117_default; cbn [h_gear]; rewrite EI; reflexivity. Qed.
Example C117_lines_example fs mid optC optS : exists sv ts faces, fst (build_bevel sv fs ts mid optC optS (mkH ex_bevel_gear (fun _ => 0))) = Ok faces /\
  exists f, In f faces /\ nurbezier_surface 0 1 (fst f) (snd f) =
    toward (V 0 0 (12 / 2 / tan (PI / 4))) (1 + 1 / 150 / slant (12 / 2) (PI / 4)) (bevel_pt (12 / 2) (PI / 4) (PI / 6) ex_turn ex_turn) /\
  nurbezier_surface 1 1 (fst f) (snd f) =
    toward (V 0 0 (12 / 2 / tan (PI / 4))) (1 - 101 / 150 / slant (12 / 2) (PI / 4)) (bevel_pt (12 / 2) (PI / 4) (PI / 6) ex_turn ex_turn).
Proof.
  set (h := mkH ex_bevel_gear (fun _ => 0)). destruct (ex_cuttable (fun _ => 0)) as (sv & ts & CU). fold h in CU.
  assert (EZ : k_zvals (ig_core (h_gear h)) = [0; 2 / 3]) by apply ex_bevel_zvals. pose proof ex_slant as SL. destruct ex_bevel_made as (_ & PA & EI & _).
  destruct (C117_lines sv fs ts mid optC optS h 12 (PI / 4) _ _ _ _ 4 (1 / 100) 0 (2 / 3) CU ltac:(lia) EZ (fun _ => eq_refl) ltac:(lra)) as (faces & EF & _ & _ & CO).
  exists sv, ts, faces. unfold h. rewrite C117_default_example. fold h. split; [exact EF|].
  specialize (CO 0%nat _ ltac:(cbn; lia) (or_intror (or_introl eq_refl))). destruct CO as (f & I & _ & A & _ & B). exists f. split; [exact I|].
  cbn [fst snd] in A, B. unfold h in A, B. cbn [h_gear] in A, B. rewrite EI, PA in A, B. cbn [ex_bevel_param ip_alpha] in A, B.
  rewrite A, B. rewrite !turn_rotz. replace (INR 0 * (2 * PI / 12)) with 0 by (cbn; ring). rewrite rotz_0, !mapp_I. split; f_equal; field; lra.
Qed.
Example C118_restored_example fs mid optC optS : exists sv ts faces,
  build_bevel sv fs ts mid optC optS (mkH ex_bevel_gear (fun _ => 0)) = (Ok faces, mkH ex_bevel_gear (fun _ => 0)).
Proof.
  destruct (C117_lines_example fs mid optC optS) as (sv & ts & faces & E & _). exists sv, ts, faces.
  destruct (build_bevel sv fs ts mid optC optS (mkH ex_bevel_gear (fun _ => 0))) as [x h'] eqn:EB. cbn [fst] in E. subst x.
  f_equal. exact (C118_restored _ _ _ _ _ _ _ _ _ _ _ _ EB).
Qed.
Example C118_one_layer_example sv fs ts mid optC optS : fst (cutting_faces sv fs ts mid optC optS (mkH ex_bevel_gear (fun _ => 0)) 4 1 (1 / 100)) = Err ValueError.
Proof. apply C118_one_layer; [lia|]. rewrite ex_bevel_zvals. cbn. lia. Qed.
Example C118_failed_example sv fs ts mid optC optS :
  k_zvals (ig_core (h_gear (snd (cutting_faces sv fs ts mid optC optS (mkH ex_bevel_gear (fun _ => 0)) 4 1 (1 / 100))))) = [- (1 / 150); 101 / 150].
Proof.
  pose proof (C118_one_layer_example sv fs ts mid optC optS) as F. set (h := mkH ex_bevel_gear (fun _ => 0)) in *.
  assert (EZ : k_zvals (ig_core (h_gear h)) = [0; 2 / 3]) by apply ex_bevel_zvals.
  destruct (cutting_faces sv fs ts mid optC optS h 4 1 (1 / 100)) as [x h'] eqn:E. cbn [fst snd] in *. subst x.
  destruct (C118_failed _ _ _ _ _ _ _ _ _ _ _ _ ltac:(rewrite EZ; cbn; lia) E) as (_ & L & H0 & H1 & _).
  rewrite EZ in L, H0, H1. destruct (k_zvals (ig_core (h_gear h'))) as [|a [|b [|]]]; try discriminate L. cbn in H0, H1. f_equal; [lra|]. f_equal. lra.
Qed.
Example C118_retries_example sv fs ts mid optC optS :
  let tries := attempts (fun h a => cutting_faces sv fs ts mid optC optS h (fst a) (snd a) (1 / 100)) (mkH ex_bevel_gear (fun _ => 0)) [(4, 1); (4, 0)]%nat in
  fst tries /\ span (snd tries) = (1 + 2 * (1 / 100)) ^ 2 * (2 / 3).
Proof.
  intros tries. set (h := mkH ex_bevel_gear (fun _ => 0)) in *. assert (EZ : k_zvals (ig_core (h_gear h)) = [0; 2 / 3]) by apply ex_bevel_zvals.
  assert (A : fst tries).
  { unfold tries. cbn [attempts fst snd].
    pose proof (C118_one_layer sv fs ts mid optC optS h 4 1 (1 / 100) ltac:(lia) ltac:(rewrite EZ; cbn; lia)) as F1.
    destruct (cutting_faces sv fs ts mid optC optS h 4 1 (1 / 100)) as [x h'] eqn:E. cbn [fst snd] in *. subst x.
    destruct (C118_failed _ _ _ _ _ _ _ _ _ _ _ _ ltac:(rewrite EZ; cbn; lia) E) as (_ & L & _).
    split; [eexists; reflexivity|]. split; [|exact I]. exists ValueError. apply C118_one_layer; [lia|]. rewrite L, EZ. cbn. lia. }
  split; [exact A|]. unfold tries. rewrite C118_retries; [|rewrite EZ; cbn; lia|exact A]. unfold span. rewrite EZ. cbn [length hd last]. ring.
Qed.
