(** Properties C62, C64, C65, C66, C73, C76: call histories on a set of gears. *)
From Coq Require Import Reals Lra Psatz Lia ZArith List Bool Arith.
From Verif Require Import Num Vec Transform TransformProps Params Coords GearMath GearLem Tooth Wrapper
  MeshLem MeshConj MeshProps MeshContactProps BevelProps World WorldLem.
Import ListNotations.
Open Scope R_scope.

Lemma view_Some w i g : view w i = Some g -> exists o, nth_error (w_gears w) i = Some o /\ g = o_view w o.
Proof.
  unfold view. destruct (nth_error _ i) as [o|]; cbn [option_map]; [|discriminate].
  intros Q. injection Q as Q. exists o. auto.
Qed.
Lemma view_intro w i o : nth_error (w_gears w) i = Some o -> view w i = Some (o_view w o).
Proof. unfold view. intros ->. reflexivity. Qed.

Definition trf_of (g : igear) : gtransform := k_trf (ig_core g).

(** ** C64 *)
Theorem C64_orientation_stays_rotation : forall cs w i g,
  Forall rot_arg cs -> run w_init cs = Ok w -> view w i = Some g -> rotation (g_orient (trf_of g)).
Proof.
  intros cs w i g R H V. apply view_Some in V as (o & N & ->).
  pose proof (run_wf _ _ _ wf_init H) as W. destruct (wf_get _ _ _ W N) as (_ & _ & C).
  assert (F : Forall rotation (w_mats w)).
  { apply (run_rotations _ _ _ wf_init) in H; [exact H| |exact R]. constructor; [apply rotation_I|constructor]. }
  rewrite Forall_forall in F. apply F. apply nth_In, C.
Qed.

(** Scale is the module given at construction, and the gear data are those of its parameters;
    the reported module is the same number unless it was assigned. *)
Theorem C64_scale_stays_module : forall cs w i g,
  run w_init cs = Ok w -> view w i = Some g ->
  g_scale (trf_of g) = ip_module (ig_in g) /\
  ig_core g = with_trf (with_module (calc_params (ig_in g)) (k_module (ig_core g))) (trf_of g) /\
  (Forall (fun c => sets_module c = false) cs -> k_module (ig_core g) = g_scale (trf_of g)).
Proof.
  intros cs w i g H V. apply view_Some in V as (o & N & ->).
  assert (F : Forall consistent (w_gears w)) by (apply (run_consistent _ _ _ wf_init) in H; [exact H|constructor]).
  rewrite Forall_forall in F. pose proof (F o (nth_error_In _ _ N)) as [A B].
  split; [exact B|]. split; [apply A|]. intros M.
  assert (F2 : Forall (fun o => k_module (o_core o) = ip_module (o_in o)) (w_gears w)).
  { apply (run_module _ _ _ wf_init) in H; [exact H|constructor|exact M]. }
  rewrite Forall_forall in F2. pose proof (F2 o (nth_error_In _ _ N)) as E.
  cbn [trf_of ig_core o_view k_module k_trf with_trf g_scale o_trf]. congruence.
Qed.

(** Every gear of a history without module assignments is a gear the meshing theorems
    C42, C43, C45, C48 and C49 talk about. *)
Theorem C64_reachable_cylindrical : forall cs w i g n,
  Forall rot_arg cs -> Forall (fun c => sets_module c = false) cs ->
  run w_init cs = Ok w -> view w i = Some g ->
  ip_teeth (ig_in g) = IZR n -> (0 < n)%Z -> 0 < ip_module (ig_in g) -> ip_cone (ig_in g) = 0 ->
  0 <= ip_alpha (ig_in g) < PI / 2 -> cylindrical g n.
Proof.
  intros cs w i g n R M H V Ht Hn Hm Hc Ha.
  destruct (C64_scale_stays_module _ _ _ _ H V) as (S & K & KM). specialize (KM M).
  constructor; try assumption.
  - rewrite K at 1. rewrite KM, S. reflexivity.
  - apply (C64_orientation_stays_rotation _ _ _ _ R H V).
Qed.
Theorem C64_reachable_conical : forall cs w i g n gam,
  Forall rot_arg cs -> Forall (fun c => sets_module c = false) cs ->
  run w_init cs = Ok w -> view w i = Some g ->
  ip_teeth (ig_in g) = IZR n -> (0 < n)%Z -> 0 < ip_module (ig_in g) -> ip_cone (ig_in g) = 2 * gam ->
  0 < gam < PI -> conical g n gam.
Proof.
  intros cs w i g n gam R M H V Ht Hn Hm Hc Ha.
  destruct (C64_scale_stays_module _ _ _ _ H V) as (S & K & KM). specialize (KM M).
  constructor; try assumption.
  - rewrite K at 1. rewrite KM, S. reflexivity.
  - apply (C64_orientation_stays_rotation _ _ _ _ R H V).
Qed.

(** One operation on another gear changes nothing, except the two that write into arrays. *)
Theorem C64_only_receiver_changes : forall cs w c w' j g,
  run w_init cs = Ok w -> step w c = Ok w' -> in_place c = false -> receiver c <> Some j ->
  view w j = Some g -> view w' j = Some g.
Proof.
  intros cs w c w' j g H S IP RC V. pose proof (run_wf _ _ _ wf_init H) as W.
  apply view_Some in V as (o & N & ->).
  destruct (step_shape _ _ _ W S IP) as (G & _ & SH).
  pose proof (wf_get _ _ _ W N) as Wo.
  assert (N' : nth_error (w_gears w') j = Some o).
  { destruct SH as [(o' & _ & -> & _)|(i & oi & o' & Ri & _ & -> & _)].
    - rewrite nth_error_app1; [exact N|]. apply (nth_error_lt _ _ _ N).
    - rewrite set_nth_other; [exact N|]. intros ->. apply RC, Ri. }
  rewrite (view_intro _ _ _ N'). f_equal. apply grows_view; assumption.
Qed.
Theorem C64_untouched_gear : forall cs ds w w' j g,
  run w_init cs = Ok w -> run w ds = Ok w' ->
  Forall (fun c => in_place c = false /\ receiver c <> Some j) ds ->
  view w j = Some g -> view w' j = Some g.
Proof.
  intros cs ds. revert cs. induction ds as [|d ds IH]; intros cs w w' j g H D F V; cbn [run] in D.
  - injection D as <-. exact V.
  - destruct (step w d) as [w1|e] eqn:S; cbn [bind] in D; [|discriminate].
    inversion F as [|? ? [IP RC] F']; subst.
    apply (IH (cs ++ [d]) w1 w' j g); [|exact D|exact F'|apply (C64_only_receiver_changes cs w d w1 j g); assumption].
    clear -H S. revert H. generalize w_init. induction cs as [|c cs IH]; intros w0 H; cbn [run app] in *.
    + injection H as ->. rewrite S. reflexivity.
    + destruct (step w0 c); cbn [bind] in *; [apply IH, H|discriminate].
Qed.

(** mesh_to on different gears of a running program does what the value version does, which is
    the subject of C42-C49. *)
Theorem C64_mesh_to_is_value_mesh : forall cs w i j sg so a t bl bias g o,
  Forall rot_arg cs -> run w_init cs = Ok w -> i <> j -> view w i = Some g -> view w j = Some o ->
  match ig_mesh_to g o sg so a t bl bias with
  | Err e => step w (MeshTo i j sg so a t bl bias) = Err e
  | Ok g' => exists w', step w (MeshTo i j sg so a t bl bias) = Ok w' /\ view w' i = Some g'
  end.
Proof.
  intros cs w i j sg so a t bl bias g o R H N Vg Vo.
  pose proof (C64_orientation_stays_rotation _ _ _ _ R H Vg) as [Og _].
  pose proof (C64_orientation_stays_rotation _ _ _ _ R H Vo) as [Oo _].
  apply view_Some in Vg as (og & Ng & ->). apply view_Some in Vo as (oo & No & ->).
  apply (mesh_value w i j sg so a t bl bias og oo (run_wf _ _ _ wf_init H) N Ng No Og Oo).
Qed.

Lemma run_app w0 cs ds w : run w0 (cs ++ ds) = Ok w <-> exists w1, run w0 cs = Ok w1 /\ run w1 ds = Ok w.
Proof.
  revert w0. induction cs as [|c cs IH]; intros w0; cbn [run app].
  - split; [intros H; exists w0; auto|]. intros (w1 & Q & H). injection Q as ->. exact H.
  - destruct (step w0 c) as [w2|e]; cbn [bind]; [apply IH|]. split; [discriminate|]. intros (w1 & Q & _). discriminate.
Qed.

(** A mesh stays in force as long as later calls are on other gears. *)
Theorem C64_mesh_persists : forall cs ds w w1 w' i j sg so a t bl bias g o,
  Forall rot_arg cs -> run w_init cs = Ok w -> i <> j -> view w i = Some g -> view w j = Some o ->
  step w (MeshTo i j sg so a t bl bias) = Ok w1 -> run w1 ds = Ok w' ->
  Forall (fun c => in_place c = false /\ receiver c <> Some i /\ receiver c <> Some j) ds ->
  exists g', ig_mesh_to g o sg so a t bl bias = Ok g' /\ view w' i = Some g' /\ view w' j = Some o.
Proof.
  intros cs ds w w1 w' i j sg so a t bl bias g o R H N Vg Vo S D F.
  pose proof (C64_mesh_to_is_value_mesh cs w i j sg so a t bl bias g o R H N Vg Vo) as M.
  destruct (ig_mesh_to g o sg so a t bl bias) as [g'|e].
  - destruct M as (w2 & S2 & V2). rewrite S in S2. injection S2 as <-.
    assert (H1 : run w_init (cs ++ [MeshTo i j sg so a t bl bias]) = Ok w1).
    { apply run_app. exists w. split; [exact H|]. cbn [run]. rewrite S. reflexivity. }
    exists g'. split; [reflexivity|]. split.
    + apply (C64_untouched_gear _ ds w1 w' i g' H1 D); [|exact V2].
      eapply Forall_impl; [|exact F]. intros c (A & B & C). auto.
    + apply (C64_untouched_gear _ ds w1 w' j o H1 D).
      * eapply Forall_impl; [|exact F]. intros c (A & B & C). auto.
      * apply (C64_only_receiver_changes cs w _ w1 j o H S); [reflexivity| |exact Vo].
        cbn [receiver]. congruence.
  - rewrite S in M. discriminate.
Qed.

(** Two gears constructed and meshed, then a third one built and moved. *)
Example C64_example : exists w g o,
  run w_init [New (ex_param 20 false) true; New (ex_param 40 false) true;
              MeshTo 1 0 0 0 1 RIGHT 0 0; New (ex_param 60 false) false; SetCenter 2 OUT; Boundary 2; Copy 1;
              SetAngle 3 1] = Ok w /\
  view w 1 = Some g /\ view w 0 = Some o /\ cylindrical g 40 /\ cylindrical o 20 /\
  g_orient (trf_of g) = UNIT3X3 /\ length (w_gears w) = 4%nat.
Proof.
  set (cs := [New (ex_param 20 false) true; New (ex_param 40 false) true]).
  set (mesh := MeshTo 1 0 0 0 1 RIGHT 0 0).
  set (ds := [New (ex_param 60 false) false; SetCenter 2 OUT; Boundary 2; Copy 1; SetAngle 3 1]).
  assert (NR : normalize_r RIGHT = Ok RIGHT).
  { unfold normalize_r, normalize. rewrite norm_unit by (vec_simpl; ring).
    destruct (Req_EM_T 1 0); [lra|]. f_equal. apply vec_eq; vec_simpl; field. }
  change (exists w g o, run w_init (cs ++ [mesh] ++ ds) = Ok w /\
    view w 1 = Some g /\ view w 0 = Some o /\ cylindrical g 40 /\ cylindrical o 20 /\
    g_orient (trf_of g) = UNIT3X3 /\ length (w_gears w) = 4%nat).
  assert (R1 : exists w, run w_init cs = Ok w /\ exists g o, view w 1 = Some g /\ view w 0 = Some o /\
     ig_in g = ip_normalise (ex_param 40 false) /\ ig_in o = ip_normalise (ex_param 20 false) /\
     length (w_gears w) = 2%nat).
  { eexists. split; [reflexivity|]. eexists. eexists. split; [reflexivity|]. split; [reflexivity|].
    split; [|split; [|reflexivity]]; unfold ip_normalise; cbn [ip_teeth ex_param].
    - destruct (Rlt_dec 40 0); [lra|reflexivity].
    - destruct (Rlt_dec 20 0); [lra|reflexivity]. }
  destruct R1 as (w & H & g & o & Vg & Vo & Ig & Io & LW).
  assert (E20 : ig_in o = ex_param 20 false).
  { rewrite Io. unfold ip_normalise. cbn [ip_teeth ex_param]. destruct (Rlt_dec 20 0); [lra|reflexivity]. }
  assert (E40 : ig_in g = ex_param 40 false).
  { rewrite Ig. unfold ip_normalise. cbn [ip_teeth ex_param]. destruct (Rlt_dec 40 0); [lra|reflexivity]. }
  assert (RA : Forall rot_arg cs) by (repeat constructor).
  assert (NM : Forall (fun c => sets_module c = false) cs) by (repeat constructor).
  pose proof PI_RGT_0.
  assert (Cg : cylindrical g 40).
  { apply (C64_reachable_cylindrical cs w 1 g); try assumption; rewrite ?E40; cbn; try reflexivity; lra. }
  assert (Co : cylindrical o 20).
  { apply (C64_reachable_cylindrical cs w 0 o); try assumption; rewrite ?E20; cbn; try reflexivity; lra. }
  assert (OO : g_orient (trf_of o) = UNIT3X3).
  { unfold cs in H. cbn [run step bind w_new_vec w_vecs w_mats w_gears app length] in H. injection H as <-.
    cbn [view nth_error w_gears option_map] in Vo. injection Vo as <-. reflexivity. }
  pose proof (C64_mesh_to_is_value_mesh cs w 1 0 0 0 1 RIGHT 0 0 g o RA H ltac:(lia) Vg Vo) as M.
  assert (MV : exists g', ig_mesh_to g o 0 0 1 RIGHT 0 0 = Ok g' /\ ig_in g' = ig_in g /\
                 g_orient (trf_of g') = g_orient (trf_of o)).
  { unfold ig_mesh_to. rewrite NR. cbn [bind]. cbv zeta.
    assert (K1 : k_cone (ig_core g) = 0) by (rewrite (cy_core _ _ Cg); apply (cy_cone _ _ Cg)).
    assert (K2 : k_cone (ig_core o) = 0) by (rewrite (cy_core _ _ Co); apply (cy_cone _ _ Co)).
    rewrite K1, K2. destruct (Req_EM_T 0 0) as [E0|C]; [|lra].
    eexists. split; [reflexivity|]. split; reflexivity. }
  destruct MV as (g' & MV & Ig' & Og').
  rewrite MV in M. destruct M as (w1 & S1 & V1).
  assert (LW1 : length (w_gears w1) = 2%nat).
  { destruct (mesh_inv w 1 0 0 0 1 RIGHT 0 0 w1 (run_wf _ _ _ wf_init H) S1) as (? & ? & ? & ? & ? & ? & _ & _ & -> & _).
    cbn [w_gears]. rewrite set_nth_length. exact LW. }
  assert (H1 : run w_init (cs ++ [mesh]) = Ok w1).
  { apply run_app. exists w. split; [exact H|]. cbn [run]. unfold mesh. rewrite S1. reflexivity. }
  assert (R2 : exists w', run w1 ds = Ok w' /\ length (w_gears w') = 4%nat).
  { destruct w1 as [vs ms gs]. cbn [w_gears] in LW1.
    destruct gs as [|g0 [|g1 [|]]]; try discriminate LW1.
    unfold ds. cbn [run step bind w_new_vec w_new_mat w_vecs w_mats w_gears w_get w_put app length nth_error set_nth].
    destruct (Nat.eqb (o_cen g1) (o_icen g1));
      cbn [run step bind w_new_vec w_new_mat w_vecs w_mats w_gears w_get w_put app length nth_error set_nth];
      (eexists; split; [reflexivity|reflexivity]). }
  destruct R2 as (w' & D & LW').
  assert (F : Forall (fun c => in_place c = false /\ receiver c <> Some 1%nat /\ receiver c <> Some 0%nat) ds).
  { unfold ds. repeat constructor; cbn [receiver in_place]; congruence. }
  destruct (C64_mesh_persists cs ds w w1 w' 1 0 0 0 1 RIGHT 0 0 g o RA H ltac:(lia) Vg Vo S1 D F) as (g2 & M2 & W1 & W0).
  rewrite MV in M2. injection M2 as <-.
  exists w', g', o. split; [apply run_app; exists w; split; [exact H|]; apply run_app; exists w1; split; [|exact D]; cbn [run]; unfold mesh; rewrite S1; reflexivity|].
  split; [exact W1|]. split; [exact W0|]. split; [|split; [exact Co|split; [rewrite Og'; exact OO|exact LW']]].
  assert (RA' : Forall rot_arg (cs ++ [mesh])) by (repeat constructor).
  assert (NM' : Forall (fun c => sets_module c = false) (cs ++ [mesh])) by (repeat constructor).
  apply (C64_reachable_cylindrical (cs ++ [mesh]) w1 1 g'); try assumption; rewrite ?Ig', ?E40; cbn; try reflexivity; lra.
Qed.

(** ** C62 *)

Lemma iter_add n p a : Nat.iter n (fun x => x + p) a = a + INR n * p.
Proof. induction n as [|n IH]; [cbn; ring|]. rewrite S_INR. cbn [Nat.iter nat_rect]. fold (Nat.iter n (fun x => x + p) a). rewrite IH. ring. Qed.

(** Number of teeth in the boundary wire. *)
Definition wire_teeth (p : iparam) : R := INR (Z.to_nat (roundZ (ip_teeth p))).

Lemma boundary_angle_eq k p a : k_rp k = ip_teeth p / 2 -> ip_teeth p <> 0 ->
  boundary_angle k a = a + wire_teeth p * (2 * PI / ip_teeth p).
Proof.
  intros E H. unfold boundary_angle, boundary_N, wire_teeth. rewrite iter_add, E.
  replace (2 * PI / (PI / (ip_teeth p / 2))) with (ip_teeth p) by (field; pose proof PI_RGT_0; lra).
  f_equal. f_equal. field. exact H.
Qed.

(** Each call turns the gear by (whole number nearest to the teeth) x pitch; nothing else moves. *)
Theorem C62_boundary_turns_gear : forall cs w i g w',
  run w_init cs = Ok w -> view w i = Some g -> ip_teeth (ig_in g) <> 0 ->
  step w (Boundary i) = Ok w' ->
  exists g', view w' i = Some g' /\ ig_in g' = ig_in g /\
    trf_of g' = mkG (g_center (trf_of g)) (g_orient (trf_of g)) (g_scale (trf_of g))
                    (g_angle (trf_of g) + wire_teeth (ig_in g) * (2 * PI / ip_teeth (ig_in g))).
Proof.
  intros cs w i g w' H V T S.
  destruct (C64_scale_stays_module _ _ _ _ H V) as (_ & K & _).
  apply view_Some in V as (o & N & ->). cbn [step] in S.
  rewrite (proj2 (w_get_Ok w i o) N) in S. cbn [bind] in S. injection S as <-.
  eexists. split; [apply view_intro; cbn [w_put w_gears]; apply set_nth_same, (nth_error_lt _ _ _ N)|].
  split; [reflexivity|].
  unfold trf_of. cbn [o_view ig_core k_trf with_trf]. unfold o_trf at 1. cbn [o_move o_cen o_ori o_scale o_angle].
  f_equal. apply (boundary_angle_eq (o_core o) (ig_in (o_view w o))); [|exact T].
  change (k_rp (o_core o)) with (k_rp (ig_core (o_view w o))). rewrite K. reflexivity.
Qed.

Fixpoint repeat_op (k : nat) (c : op) : list op := match k with O => [] | S k' => c :: repeat_op k' c end.

Theorem C62_accumulates : forall k cs w i g w',
  run w_init cs = Ok w -> view w i = Some g -> ip_teeth (ig_in g) <> 0 ->
  run w (repeat_op k (Boundary i)) = Ok w' ->
  exists g', view w' i = Some g' /\
    trf_of g' = mkG (g_center (trf_of g)) (g_orient (trf_of g)) (g_scale (trf_of g))
                    (g_angle (trf_of g) + INR k * (wire_teeth (ig_in g) * (2 * PI / ip_teeth (ig_in g)))).
Proof.
  induction k as [|k IH]; intros cs w i g w' H V T D; cbn [repeat_op run] in D.
  - injection D as <-. exists g. split; [exact V|]. rewrite Rmult_0_l, Rplus_0_r. destruct (trf_of g); reflexivity.
  - destruct (step w (Boundary i)) as [w1|e] eqn:S; cbn [bind] in D; [|discriminate].
    destruct (C62_boundary_turns_gear cs w i g w1 H V T S) as (g1 & V1 & I1 & T1).
    assert (H1 : run w_init (cs ++ [Boundary i]) = Ok w1).
    { apply run_app. exists w. split; [exact H|]. cbn [run]. rewrite S. reflexivity. }
    destruct (IH (cs ++ [Boundary i]) w1 i g1 w' H1 V1 ltac:(rewrite I1; exact T) D) as (g2 & V2 & T2).
    exists g2. split; [exact V2|]. rewrite T2, T1, I1. cbn [g_center g_orient g_scale g_angle]. f_equal.
    rewrite S_INR. ring.
Qed.

(** A whole number of teeth: a full turn, so no point of the gear moves. *)
Theorem C62_whole_teeth_harmless : forall cs w i g w' n,
  run w_init cs = Ok w -> view w i = Some g -> ip_teeth (ig_in g) = IZR n -> (0 < n)%Z ->
  step w (Boundary i) = Ok w' ->
  exists g', view w' i = Some g' /\ g_angle (trf_of g') = g_angle (trf_of g) + 2 * PI /\
    forall q, apply_gear_transform q (trf_of g') = apply_gear_transform q (trf_of g).
Proof.
  intros cs w i g w' n H V T Hn S. assert (0 < IZR n) by (apply IZR_lt; exact Hn).
  destruct (C62_boundary_turns_gear cs w i g w' H V ltac:(lra) S) as (g' & V' & _ & T').
  exists g'. split; [exact V'|].
  assert (A : g_angle (trf_of g') = g_angle (trf_of g) + 2 * PI).
  { rewrite T'. cbn [g_angle]. unfold wire_teeth. rewrite T, roundZ_IZR, INR_IZR_INZ, Z2Nat.id by lia. field. lra. }
  split; [exact A|]. intros q. unfold apply_gear_transform. rewrite A, T'. cbn [g_center g_orient g_scale].
  do 4 f_equal. unfold rotz.
  rewrite <- (cos_period (g_angle (trf_of g)) 1), <- (sin_period (g_angle (trf_of g)) 1).
  replace (g_angle (trf_of g) + 2 * INR 1 * PI) with (g_angle (trf_of g) + 2 * PI) by (cbn [INR]; ring). reflexivity.
Qed.

Lemma roundZ_dist x : Rabs (IZR (roundZ x) - x) <= 1 / 2.
Proof.
  unfold roundZ. destruct (floorZ_bound x) as [A B].
  destruct (Rlt_dec _ _); [apply Rabs_le; lra|].
  destruct (Rlt_dec _ _); [rewrite plus_IZR; apply Rabs_le; lra|].
  destruct (Z.even _); [|rewrite plus_IZR]; apply Rabs_le; lra.
Qed.

(** A fractional tooth number: the gear really turns. *)
Theorem C62_fractional_teeth_refuted : forall cs w i g w',
  Forall rot_arg cs -> run w_init cs = Ok w -> view w i = Some g ->
  1 <= ip_teeth (ig_in g) -> (forall n, ip_teeth (ig_in g) <> IZR n) -> ip_module (ig_in g) <> 0 ->
  step w (Boundary i) = Ok w' ->
  exists g', view w' i = Some g' /\
    apply_gear_transform RIGHT (trf_of g') <> apply_gear_transform RIGHT (trf_of g).
Proof.
  intros cs w i g w' RA H V T NI M S.
  destruct (C62_boundary_turns_gear cs w i g w' H V ltac:(lra) S) as (g' & V' & _ & T').
  destruct (C64_scale_stays_module _ _ _ _ H V) as (SC & _ & _).
  destruct (C64_orientation_stays_rotation _ _ _ _ RA H V) as [O _].
  exists g'. split; [exact V'|]. intros E.
  set (z := ip_teeth (ig_in g)) in *. set (d := wire_teeth (ig_in g) * (2 * PI / z)) in *.
  assert (PP := PI_RGT_0).
  pose proof (roundZ_dist z) as RD. set (N := roundZ z) in *.
  assert (N1 : 1 / 2 <= IZR N) by (unfold Rabs in RD; destruct (Rcase_abs _); lra).
  assert (W : wire_teeth (ig_in g) = IZR N).
  { unfold wire_teeth. fold z. fold N. rewrite INR_IZR_INZ, Z2Nat.id; [reflexivity|]. apply le_IZR. lra. }
  assert (K : d / PI = 2 * (IZR N / z)) by (unfold d; rewrite W; field; lra).
  assert (B : 1 / 2 <= IZR N / z <= 3 / 2).
  { assert (- (1/2) <= IZR N - z <= 1 / 2) by (unfold Rabs in RD; destruct (Rcase_abs _); lra).
    split; [apply (Rmult_le_reg_r z)|apply (Rmult_le_reg_r z)]; try lra;
      (replace (IZR N / z * z) with (IZR N) by (field; lra)); lra. }
  (* cos d = 1 *)
  assert (CD : cos d = 1).
  { set (R0 := mapp (rotz (g_angle (trf_of g))) RIGHT).
    assert (E2 : mapp (rotz (g_angle (trf_of g) + d)) RIGHT = mapp (rotz (g_angle (trf_of g))) RIGHT).
    { unfold apply_gear_transform in E. rewrite T' in E. cbn [g_center g_orient g_scale g_angle] in E.
      rewrite !vmat_mtrans in E.
      assert (E3 : smul (g_scale (trf_of g)) (mapp (g_orient (trf_of g)) (mapp (rotz (g_angle (trf_of g) + d)) RIGHT)) =
                   smul (g_scale (trf_of g)) (mapp (g_orient (trf_of g)) (mapp (rotz (g_angle (trf_of g))) RIGHT))).
      { match goal with |- ?a = ?b => replace a with (vsub (vadd a (g_center (trf_of g))) (g_center (trf_of g))) by
          (generalize a (g_center (trf_of g)); intros; vec_ring);
          replace b with (vsub (vadd b (g_center (trf_of g))) (g_center (trf_of g))) by
          (generalize b (g_center (trf_of g)); intros; vec_ring) end.
        f_equal. exact E. }
      assert (E4 := f_equal (smul (/ g_scale (trf_of g))) E3).
      assert (SM : forall v, smul (/ g_scale (trf_of g)) (smul (g_scale (trf_of g)) v) = v).
      { intros v. rewrite SC. generalize (ip_module (ig_in g)) M. clear. intros m M. apply vec_eq; destruct v; vec_simpl; field; exact M. }
      rewrite !SM in E4. assert (E5 := f_equal (mapp (mtrans (g_orient (trf_of g)))) E4).
      rewrite !orthogonal_inv_l in E5 by exact O. exact E5. }
    revert E2. generalize (g_angle (trf_of g)). clear. intros t E2.
    assert (X := f_equal vx E2). assert (Y := f_equal vy E2). vec_simpl.
    replace d with ((t + d) - t) by ring. rewrite cos_minus.
    pose proof (sc1 t). replace (cos (t + d)) with (cos t) by lra. replace (sin (t + d)) with (sin t) by lra. nra. }
  assert (SD : sin (d / 2) = 0).
  { replace d with (2 * (d / 2)) in CD by field. rewrite cos_2a_sin in CD. nra. }
  apply sin_eq_0_0 in SD. destruct SD as [k Hk].
  assert (Kk : IZR N / z = IZR k).
  { assert (d / PI = 2 * IZR k) by (replace d with (2 * (d / 2)) by field; rewrite Hk; field; lra). lra. }
  assert (k = 1%Z).
  { rewrite Kk in B. assert (0 < k)%Z by (apply lt_IZR; lra). assert (k < 2)%Z by (apply lt_IZR; lra). lia. }
  subst k. apply (NI N). replace z with (IZR N / (IZR N / z)); [rewrite Kk; field|]. field. lra.
Qed.

Example C62_example : exists w g w' g' w1 g1 w1' g1',
  run w_init [New (ex_param 20 false) true] = Ok w /\ view w 0 = Some g /\ ip_teeth (ig_in g) = 20 /\
  step w (Boundary 0) = Ok w' /\ view w' 0 = Some g' /\ g_angle (trf_of g') = 2 * PI /\
  run w_init [New (ex_param (41 / 2) false) true] = Ok w1 /\ view w1 0 = Some g1 /\
  step w1 (Boundary 0) = Ok w1' /\ view w1' 0 = Some g1' /\ g_angle (trf_of g1') = 80 / 41 * PI.
Proof.
  assert (E20 : ip_normalise (ex_param 20 false) = ex_param 20 false).
  { unfold ip_normalise. cbn [ip_teeth ex_param]. destruct (Rlt_dec 20 0); [lra|reflexivity]. }
  assert (E41 : ip_normalise (ex_param (41/2) false) = ex_param (41/2) false).
  { unfold ip_normalise. cbn [ip_teeth ex_param]. destruct (Rlt_dec (41/2) 0); [lra|reflexivity]. }
  assert (N41 : roundZ (41/2) = 20%Z).
  { unfold roundZ. rewrite (floorZ_unique (41/2) 20) by lra.
    destruct (Rlt_dec _ _); [lra|]. destruct (Rlt_dec _ _); [lra|reflexivity]. }
  eexists. eexists. eexists. eexists. eexists. eexists. eexists. eexists.
  split; [reflexivity|]. split; [reflexivity|]. split; [cbn [o_view ig_in o_calc o_in with_center ip_teeth]; rewrite E20; reflexivity|].
  split; [reflexivity|]. split; [reflexivity|].
  split.
  { cbn [trf_of o_view ig_core k_trf with_trf o_trf g_angle o_move o_angle o_calc o_core].
    rewrite (boundary_angle_eq _ (ex_param 20 false)); [|cbn; rewrite E20; reflexivity|cbn; lra].
    rewrite E20. unfold wire_teeth. cbn [o_in ip_teeth ip_angle ex_param]. rewrite (roundZ_IZR 20), INR_IZR_INZ. cbn [Z.to_nat Z.of_nat Pos.to_nat].
    replace (Z.of_nat (Pos.to_nat 20)) with 20%Z by reflexivity. field. }
  split; [reflexivity|]. split; [reflexivity|]. split; [reflexivity|]. split; [reflexivity|].
  cbn [trf_of o_view ig_core k_trf with_trf o_trf g_angle o_move o_angle o_calc o_core].
  rewrite (boundary_angle_eq _ (ex_param (41/2) false)); [|cbn; rewrite E41; reflexivity|cbn; lra].
  rewrite E41. unfold wire_teeth. cbn [o_in ip_teeth ip_angle ex_param]. rewrite N41, INR_IZR_INZ.
  replace (Z.of_nat (Z.to_nat 20)) with 20%Z by reflexivity. field.
Qed.

(** ** C65 *)
Lemma run_grows w cs w' : wf w -> Forall (fun c => in_place c = false) cs -> run w cs = Ok w' -> grows w w'.
Proof.
  revert w. induction cs as [|c cs IH]; intros w W F H; cbn [run] in H; [injection H as <-; apply grows_refl|].
  destruct (step w c) as [w1|e] eqn:S; cbn [bind] in H; [|discriminate].
  inversion F as [|? ? Fc Fcs]; subst.
  apply (grows_trans _ w1); [apply (step_shape _ _ _ W S Fc)|].
  apply (IH w1); eauto using step_wf.
Qed.
Lemma shared_arrays cs w : Forall (fun c => in_place c = false) cs -> run w_init cs = Ok w ->
  w_vec w 0 = ORIGIN /\ w_mat w 0 = UNIT3X3.
Proof.
  intros F H. pose proof (run_grows _ _ _ wf_init F H) as G.
  rewrite (grows_vec w_init w), (grows_mat w_init w) by (exact G || cbn; lia). split; reflexivity.
Qed.

(** The parameters of a gear, except the crowning, stay what they are. *)
Lemma step_inputs w c w' i o : wf w -> step w c = Ok w' -> nth_error (w_gears w) i = Some o ->
  exists o', nth_error (w_gears w') i = Some o' /\ with_crown (o_in o') 0 = with_crown (o_in o) 0.
Proof.
  intros W S N. destruct (in_place c) eqn:IP.
  - destruct (step_in_place _ _ _ S IP) as (-> & _). exists o. auto.
  - destruct (step_shape _ _ _ W S IP) as (_ & _ & [(o' & _ & -> & _)|(k & ok & o' & _ & Nk & -> & _ & _ & _ & E & _)]).
    + exists o. rewrite nth_error_app1 by apply (nth_error_lt _ _ _ N). auto.
    + destruct (Nat.eq_dec k i) as [->|D].
      * exists o'. rewrite set_nth_same by apply (nth_error_lt _ _ _ N).
        rewrite N in Nk. injection Nk as <-. split; [reflexivity|].
        destruct E as [->|(cr & ->)]; reflexivity.
      * exists o. rewrite set_nth_other by exact D. auto.
Qed.
Lemma run_inputs w cs w' i o : wf w -> run w cs = Ok w' -> nth_error (w_gears w) i = Some o ->
  exists o', nth_error (w_gears w') i = Some o' /\ with_crown (o_in o') 0 = with_crown (o_in o) 0.
Proof.
  revert w o. induction cs as [|c cs IH]; intros w o W H N; cbn [run] in H; [injection H as <-; exists o; auto|].
  destruct (step w c) as [w1|e] eqn:S; cbn [bind] in H; [|discriminate].
  destruct (step_inputs _ _ _ _ _ W S N) as (o1 & N1 & E1).
  destruct (IH w1 o1 (step_wf _ _ _ W S) H N1) as (o2 & N2 & E2). exists o2. split; [exact N2|congruence].
Qed.

(** reset_location puts the gear at the origin with orientation 1 and angle 0. *)
Theorem C65_reset_placement : forall cs w i g w',
  Forall (fun c => in_place c = false) cs -> run w_init cs = Ok w -> view w i = Some g ->
  step w (Reset i) = Ok w' ->
  view w' i = Some (ig_reset_location g) /\
  trf_of (ig_reset_location g) = mkG ORIGIN UNIT3X3 (ip_module (ig_in g)) 0.
Proof.
  intros cs w i g w' F H V S. destruct (shared_arrays _ _ F H) as [A0 M0].
  destruct (C64_scale_stays_module _ _ _ _ H V) as (SC & _ & _).
  split; [|unfold trf_of, ig_reset_location in *; cbn [ig_place ig_core with_trf k_trf]; rewrite SC; reflexivity].
  apply view_Some in V as (o & N & ->). cbn [step] in S.
  rewrite (proj2 (w_get_Ok w i o) N) in S. cbn [bind] in S. injection S as <-.
  rewrite (view_intro _ i (o_move o 0 0 0)) by (cbn [w_put w_gears]; apply set_nth_same, (nth_error_lt _ _ _ N)).
  f_equal. unfold o_view, ig_reset_location, ig_place. cbn [ig_in ig_core o_move o_in o_icen o_core]. f_equal.
  change (w_vec (w_put w i (o_move o 0 0 0))) with (w_vec w).
  unfold o_trf. cbn [o_move o_cen o_ori o_scale o_angle].
  change (w_vec (w_put w i (o_move o 0 0 0)) 0) with (w_vec w 0).
  change (w_mat (w_put w i (o_move o 0 0 0)) 0) with (w_mat w 0). rewrite A0, M0. reflexivity.
Qed.

(** It brings back the construction placement exactly for gears constructed at the origin with
    angle 0, whatever happened between. *)
Theorem C65_restores_construction_iff : forall cs w p d w1 ds w2 w3 g0,
  Forall (fun c => in_place c = false) cs -> Forall (fun c => in_place c = false) ds ->
  run w_init cs = Ok w -> step w (New p d) = Ok w1 -> view w1 (length (w_gears w)) = Some g0 ->
  run w1 ds = Ok w2 -> step w2 (Reset (length (w_gears w))) = Ok w3 ->
  exists g3, view w3 (length (w_gears w)) = Some g3 /\
    (trf_of g3 = trf_of g0 <-> (d = true \/ ip_center p = ORIGIN) /\ ip_angle p = 0).
Proof.
  intros cs w p d w1 ds w2 w3 g0 F1 F2 H S V D R. set (i := length (w_gears w)) in *.
  pose proof (run_wf _ _ _ wf_init H) as W.
  destruct (shared_arrays _ _ F1 H) as [A0 _].
  assert (H1 : run w_init (cs ++ [New p d]) = Ok w1).
  { apply run_app. exists w. split; [exact H|]. cbn [run]. rewrite S. reflexivity. }
  assert (H2 : run w_init ((cs ++ [New p d]) ++ ds) = Ok w2) by (apply run_app; exists w1; auto).
  assert (T0 : trf_of g0 = mkG (if d then ORIGIN else ip_center p) UNIT3X3 (ip_module (ig_in g0)) (ip_angle p)).
  { assert (M0 : w_mat w 0 = UNIT3X3) by apply (shared_arrays _ _ F1 H).
    apply view_Some in V as (o & N & ->). cbn [step] in S.
    destruct d; cbn [w_new_vec w_vecs w_mats w_gears] in S; injection S as <-; cbn [w_gears] in N;
      unfold i in N; rewrite nth_error_app2, Nat.sub_diag in N by lia; cbn [nth_error] in N; injection N as <-;
      unfold trf_of, o_view, o_trf, w_vec, w_mat, o_calc; cbn [ig_core ig_in with_trf k_trf o_cen o_ori o_scale o_angle w_vecs w_mats o_in o_icen with_center ip_module ip_angle].
    - unfold w_vec in A0. unfold w_mat in M0. rewrite A0, M0. f_equal; unfold ip_normalise; destruct (Rlt_dec _ _); reflexivity.
    - unfold w_mat in M0. rewrite M0, new_vec_last. f_equal; unfold ip_normalise; destruct (Rlt_dec _ _); reflexivity. }
  apply view_Some in V as (o & N & E0).
  destruct (run_inputs _ _ _ _ _ (run_wf _ _ _ wf_init H1) D N) as (o2 & N2 & E2).
  assert (MM : ip_module (o_in o2) = ip_module (o_in o)).
  { change (ip_module (with_crown (o_in o2) 0) = ip_module (with_crown (o_in o) 0)). rewrite E2. reflexivity. }
  assert (FF : Forall (fun c => in_place c = false) ((cs ++ [New p d]) ++ ds)).
  { apply Forall_app. split; [|exact F2]. apply Forall_app. split; [exact F1|repeat constructor]. }
  destruct (C65_reset_placement _ w2 i (o_view w2 o2) w3 FF H2 (view_intro _ _ _ N2) R) as (V3 & T3).
  eexists. split; [exact V3|]. rewrite T3, T0, E0.
  cbn [o_view ig_in with_center ip_module]. rewrite MM. split.
  - intros Q. injection Q as Qc Qa. split; [|auto]. destruct d; [left; reflexivity|right; auto].
  - intros [[->|C] A]; rewrite A; [reflexivity|]. rewrite C. destruct d; reflexivity.
Qed.

(** A gear constructed elsewhere is not where it was constructed. *)
Example C65_example_refuted : exists w g w' g',
  run w_init [New (mkIP 20 5 0 0 (V 7 0 0) 0 2 false 0 0 0 0 1 (5/4) (PI/9) 0 0 false 0) false] = Ok w /\
  view w 0 = Some g /\ g_center (trf_of g) = V 7 0 0 /\
  step w (Reset 0) = Ok w' /\ view w' 0 = Some g' /\ g_center (trf_of g') = V 0 0 0.
Proof. do 4 eexists. repeat (split; [reflexivity|]). reflexivity. Qed.

(** ** C66 *)

(** Assigning cone_angle changes nothing that can be read from any gear. *)
Theorem C66_cone_setter_without_effect : forall w i c w',
  step w (SetCone i c) = Ok w' -> forall j, view w' j = view w j.
Proof.
  intros w i c w' S j. cbn [step] in S. destruct (w_get w i); cbn [bind] in S; [|discriminate].
  injection S as <-. reflexivity.
Qed.

(** Assigning the module changes the reported module and pitch radius, but neither the scale
    used for building nor the base radius used for meshing. *)
Theorem C66_module_setter : forall cs w i g m w',
  run w_init cs = Ok w -> view w i = Some g -> step w (SetModule i m) = Ok w' ->
  exists g', view w' i = Some g' /\
    k_module (ig_core g') = m /\ k_pitch_radius (ig_core g') = num_teeth (k_tooth (ig_core g)) * m / 2 /\
    trf_of g' = trf_of g /\ ig_in g' = ig_in g /\ ig_r_base g' = ig_r_base g /\
    (0 < ip_teeth (ig_in g) -> Forall (fun c => sets_module c = false) cs ->
     (k_pitch_radius (ig_core g') = g_scale (trf_of g') * k_rp (ig_core g') <-> m = k_module (ig_core g))).
Proof.
  intros cs w i g m w' H V S.
  destruct (C64_scale_stays_module _ _ _ _ H V) as (SC & K & KM).
  apply view_Some in V as (o & N & E). cbn [step] in S.
  rewrite (proj2 (w_get_Ok w i o) N) in S. cbn [bind] in S. injection S as <-.
  eexists. split; [apply view_intro; cbn [w_put w_gears]; apply set_nth_same, (nth_error_lt _ _ _ N)|].
  set (o' := mkO _ _ _ _ _ _ _ _).
  assert (TR : trf_of (o_view (w_put w i o') o') = trf_of g) by (rewrite E; reflexivity).
  split; [reflexivity|]. split; [rewrite E; reflexivity|]. split; [exact TR|].
  split; [rewrite E; reflexivity|]. split; [rewrite E; reflexivity|].
  intros HT NM. specialize (KM NM). rewrite TR.
  change (k_pitch_radius (ig_core (o_view (w_put w i o') o'))) with (num_teeth (k_tooth (o_core o)) * m / 2).
  change (k_rp (ig_core (o_view (w_put w i o') o'))) with (k_rp (o_core o)).
  assert (E1 : num_teeth (k_tooth (o_core o)) = ip_teeth (ig_in g)).
  { change (k_tooth (o_core o)) with (k_tooth (ig_core (o_view w o))). rewrite <- E, K.
    cbn [with_trf with_module k_tooth calc_params]. rewrite tp_make_pos by exact HT. reflexivity. }
  assert (E2 : k_rp (o_core o) = ip_teeth (ig_in g) / 2).
  { change (k_rp (o_core o)) with (k_rp (ig_core (o_view w o))). rewrite <- E, K. reflexivity. }
  rewrite E1, E2, KM. split; intros Q; [|rewrite Q; field].
  apply (Rmult_eq_reg_l (ip_teeth (ig_in g))); lra.
Qed.

Example C66_example : exists w g w' g',
  run w_init [New (ex_param 20 false) true] = Ok w /\ view w 0 = Some g /\
  step w (SetModule 0 3) = Ok w' /\ view w' 0 = Some g' /\
  k_pitch_radius (ig_core g) = 20 /\ k_pitch_radius (ig_core g') = 30 /\ g_scale (trf_of g') = 2.
Proof.
  assert (E20 : ip_normalise (ex_param 20 false) = ex_param 20 false).
  { unfold ip_normalise. cbn [ip_teeth ex_param]. destruct (Rlt_dec 20 0); [lra|reflexivity]. }
  do 4 eexists. do 4 (split; [cbn [run step w_new_vec bind]; rewrite ?E20; reflexivity|]).
  unfold k_pitch_radius. cbn [o_view ig_core with_trf k_tooth k_module o_calc o_core with_module calc_params with_center o_in ip_teeth ex_param ip_module ip_inside].
  rewrite tp_make_pos by lra. cbn [num_teeth]. split; [lra|]. split; [lra|reflexivity].
Qed.

(** ** C73 *)

(** What happens to gear [k] in one step. *)
Lemma step_gear w c w' k o : wf w -> step w c = Ok w' -> nth_error (w_gears w) k = Some o ->
  exists o', nth_error (w_gears w') k = Some o' /\
    (o_owner o' = o_owner o /\ k_tooth_angle (o_core o') = k_tooth_angle (o_core o) /\ k_rp (o_core o') = k_rp (o_core o) \/
     c = Calc k /\ o' = o_calc w k o).
Proof.
  intros W S N. pose proof (nth_error_lt _ _ _ N) as L.
  assert (UPD : forall i o1 o1', nth_error (w_gears w) i = Some o1 ->
     (o_owner o1' = o_owner o1 /\ k_tooth_angle (o_core o1') = k_tooth_angle (o_core o1) /\ k_rp (o_core o1') = k_rp (o_core o1)) ->
     exists o', nth_error (set_nth i o1' (w_gears w)) k = Some o' /\
    (o_owner o' = o_owner o /\ k_tooth_angle (o_core o') = k_tooth_angle (o_core o) /\ k_rp (o_core o') = k_rp (o_core o) \/
     c = Calc k /\ o' = o_calc w k o)).
  { intros i o1 o1' N1 E. destruct (Nat.eq_dec i k) as [->|D].
    - exists o1'. rewrite set_nth_same by exact L. split; [reflexivity|]. left. rewrite N in N1. injection N1 as <-. exact E.
    - exists o. rewrite set_nth_other by exact D. auto. }
  assert (KEEP : forall l, exists o', nth_error (w_gears w ++ l) k = Some o' /\
    (o_owner o' = o_owner o /\ k_tooth_angle (o_core o') = k_tooth_angle (o_core o) /\ k_rp (o_core o') = k_rp (o_core o) \/
     c = Calc k /\ o' = o_calc w k o)).
  { intros l. exists o. rewrite nth_error_app1 by exact L. auto. }
  destruct c as [p d|i j sg so a t bl bias|i|i v|i v|i a|i m|i m|i|i|i m|i c|i c|i]; cbn [step] in S.
  - destruct d; cbn [w_new_vec] in S; injection S as <-; apply KEEP.
  - destruct (mesh_inv _ _ _ _ _ _ _ _ _ _ W S) as (g & o2 & v0 & ms & lm & ang & Gi & Gj & -> & LM).
    cbn [w_gears]. apply (UPD i g); [exact Gi|]. auto.
  - destruct (w_get w i) as [o1|e] eqn:G; cbn [bind] in S; [|discriminate]. apply w_get_Ok in G.
    injection S as <-. apply (UPD i o1); auto.
  - destruct (w_get w i) as [o1|e] eqn:G; cbn [bind] in S; [|discriminate]. apply w_get_Ok in G.
    cbn [w_new_vec] in S. injection S as <-. apply (UPD i o1); auto.
  - destruct (w_get w i) as [o1|e] eqn:G; cbn [bind] in S; [|discriminate].
    injection S as <-. cbn [w_gears]. exists o. auto.
  - destruct (w_get w i) as [o1|e] eqn:G; cbn [bind] in S; [|discriminate]. apply w_get_Ok in G.
    injection S as <-. apply (UPD i o1); auto.
  - destruct (w_get w i) as [o1|e] eqn:G; cbn [bind] in S; [|discriminate]. apply w_get_Ok in G.
    cbn [w_new_mat] in S. injection S as <-. apply (UPD i o1); auto.
  - destruct (w_get w i) as [o1|e] eqn:G; cbn [bind] in S; [|discriminate].
    injection S as <-. cbn [w_gears]. exists o. auto.
  - destruct (w_get w i) as [o1|e] eqn:G; cbn [bind] in S; [|discriminate]. apply w_get_Ok in G.
    injection S as <-. apply (UPD i o1); auto.
  - destruct (w_get w i) as [o1|e] eqn:G; cbn [bind] in S; [|discriminate].
    cbn [w_new_vec] in S. destruct (Nat.eqb _ _); cbn [w_new_vec w_new_mat] in S; injection S as <-; apply KEEP.
  - destruct (w_get w i) as [o1|e] eqn:G; cbn [bind] in S; [|discriminate]. apply w_get_Ok in G.
    injection S as <-. apply (UPD i o1); auto.
  - destruct (w_get w i) as [o1|e] eqn:G; cbn [bind] in S; [|discriminate].
    injection S as <-. cbn [w_gears]. exists o. auto.
  - destruct (w_get w i) as [o1|e] eqn:G; cbn [bind] in S; [|discriminate]. apply w_get_Ok in G.
    injection S as <-. apply (UPD i o1); auto.
  - destruct (w_get w i) as [o1|e] eqn:G; cbn [bind] in S; [|discriminate]. apply w_get_Ok in G.
    injection S as <-. cbn [w_put w_gears]. destruct (Nat.eq_dec i k) as [->|D].
    + rewrite N in G. injection G as <-. exists (o_calc w k o). rewrite set_nth_same by exact L. auto.
    + exists o. rewrite set_nth_other by exact D. auto.
Qed.

(** The closures of gear [k] stay those of their owner until calc_params is called on [k]. *)
Lemma run_owner w cs w' k o : wf w -> run w cs = Ok w' -> nth_error (w_gears w) k = Some o ->
  (o_owner o = k \/ ~ In (Calc k) cs) ->
  exists o', nth_error (w_gears w') k = Some o' /\ o_owner o' = o_owner o.
Proof.
  revert w o. induction cs as [|c cs IH]; intros w o W H N D; cbn [run] in H; [injection H as <-; exists o; auto|].
  destruct (step w c) as [w1|e] eqn:S; cbn [bind] in H; [|discriminate].
  destruct (step_gear _ _ _ _ _ W S N) as (o1 & N1 & E1).
  assert (OW : o_owner o1 = o_owner o).
  { destruct E1 as [(E & _)|(-> & ->)]; [exact E|]. destruct D as [D|D]; [rewrite D; reflexivity|].
    exfalso. apply D. left. reflexivity. }
  destruct (IH w1 o1 (step_wf _ _ _ W S) H N1) as (o2 & N2 & E2).
  { rewrite OW. destruct D as [D|D]; [left; exact D|right]. intros I. apply D. right. exact I. }
  exists o2. split; [exact N2|congruence].
Qed.

(** Gear [i] is constructed, anything happens, it is copied (the copy is gear [k]), and anything
    happens except calc_params on the copy.  Then the tooth angle of the copy's slices is computed
    from the height and crowning that the original has at that moment. *)
Theorem C73_copy_follows_original : forall cs w p d w1 ds w2 w3 es w4 k,
  run w_init cs = Ok w -> step w (New p d) = Ok w1 -> run w1 ds = Ok w2 ->
  step w2 (Copy (length (w_gears w))) = Ok w3 -> k = length (w_gears w2) ->
  run w3 es = Ok w4 -> ~ In (Calc k) es ->
  exists g gk, view w4 (length (w_gears w)) = Some g /\ view w4 k = Some gk /\
    forall z, slice_pia w4 k z =
      Some (crowning (ip_height (ig_in g)) (ip_crown (ig_in g)) (ip_teeth (ig_in gk) / 2) z
              (k_tooth_angle (ig_core gk))).
Proof.
  intros cs w p d w1 ds w2 w3 es w4 k H S D C -> E NC. set (i := length (w_gears w)) in *.
  pose proof (run_wf _ _ _ wf_init H) as W.
  assert (N1 : exists o1, nth_error (w_gears w1) i = Some o1 /\ o_owner o1 = i).
  { cbn [step] in S. destruct d; cbn [w_new_vec] in S; injection S as <-; cbn [w_gears];
      (eexists; split; [unfold i; rewrite nth_error_app2, Nat.sub_diag by lia; reflexivity|reflexivity]). }
  destruct N1 as (o1 & N1 & O1).
  assert (W1 := step_wf _ _ _ W S).
  destruct (run_owner _ _ _ _ _ W1 D N1 (or_introl O1)) as (o2 & N2 & O2). rewrite O1 in O2.
  assert (W2 := run_wf _ _ _ W1 D).
  set (k := length (w_gears w2)) in *.
  assert (N3 : nth_error (w_gears w3) i = Some o2 /\ exists ok, nth_error (w_gears w3) k = Some ok /\ o_owner ok = i).
  { cbn [step] in C. rewrite (proj2 (w_get_Ok w2 i o2) N2) in C. cbn [bind w_new_vec] in C.
    destruct (Nat.eqb _ _); cbn [w_new_vec w_new_mat] in C; injection C as <-; cbn [w_gears];
      (split; [rewrite nth_error_app1 by apply (nth_error_lt _ _ _ N2); exact N2|
               eexists; split; [unfold k; rewrite nth_error_app2, Nat.sub_diag by lia; reflexivity|exact O2]]). }
  destruct N3 as (N3 & ok & Nk & Ok3).
  assert (W3 := step_wf _ _ _ W2 C).
  destruct (run_owner _ _ _ _ _ W3 E N3 (or_introl O2)) as (o4 & N4 & O4).
  destruct (run_owner _ _ _ _ _ W3 E Nk (or_intror NC)) as (ok4 & Nk4 & Ok4).
  rewrite Ok3 in Ok4.
  exists (o_view w4 o4), (o_view w4 ok4). split; [apply view_intro, N4|]. split; [apply view_intro, Nk4|].
  intros z. unfold slice_pia. rewrite Nk4, Ok4, N4. f_equal. cbn [o_view ig_in ig_core with_center ip_height ip_crown ip_teeth with_trf k_tooth_angle].
  f_equal.
  assert (F : Forall consistent (w_gears w4)).
  { assert (R : run w_init (cs ++ (New p d :: ds) ++ (Copy i :: es)) = Ok w4).
    { apply run_app. exists w. split; [exact H|]. apply run_app. exists w2. split; cbn [run].
      - rewrite S. exact D.
      - rewrite C. exact E. }
    apply (run_consistent _ _ _ wf_init) in R; [exact R|constructor]. }
  rewrite Forall_forall in F. destruct (F ok4 (nth_error_In _ _ Nk4)) as [A _].
  specialize (A g_default). assert (B := f_equal k_rp A). exact B.
Qed.

(** Changing the original's crowning changes the copy's teeth; changing the copy's does not. *)
Theorem C73_independence_refuted : forall cs w p d w1 w2 c w3 w4 z pia,
  run w_init cs = Ok w -> step w (New p d) = Ok w1 -> step w1 (Copy (length (w_gears w))) = Ok w2 ->
  slice_pia w2 (S (length (w_gears w))) z = Some pia ->
  step w2 (SetCrown (length (w_gears w)) c) = Ok w3 ->
  step w2 (SetCrown (S (length (w_gears w))) c) = Ok w4 ->
  ip_teeth p <> 0 -> z * 2 / ip_height p <> 1 -> c <> ip_crown p ->
  slice_pia w3 (S (length (w_gears w))) z <> Some pia /\ slice_pia w4 (S (length (w_gears w))) z = Some pia.
Proof.
  intros cs w p d w1 w2 c w3 w4 z pia H S C P S3 S4 T Z NC. set (i := length (w_gears w)) in *.
  pose proof (run_wf _ _ _ wf_init H) as W.
  assert (N1 : exists o1, w_gears w1 = w_gears w ++ [o1] /\ o_owner o1 = i /\ o_in o1 = ip_normalise p /\
             k_rp (o_core o1) = ip_teeth (ip_normalise p) / 2).
  { cbn [step] in S. destruct d; cbn [w_new_vec] in S; injection S as <-; cbn [w_gears];
      (eexists; split; [reflexivity|]; split; [reflexivity|]; split; reflexivity). }
  destruct N1 as (o1 & G1 & O1 & I1 & R1).
  assert (N1 : nth_error (w_gears w1) i = Some o1).
  { rewrite G1. unfold i. rewrite nth_error_app2, Nat.sub_diag by lia. reflexivity. }
  assert (G2 : exists ok, w_gears w2 = (w_gears w ++ [o1]) ++ [ok] /\ o_owner ok = i /\ o_core ok = o_core o1).
  { cbn [step] in C. rewrite (proj2 (w_get_Ok w1 i o1) N1) in C. cbn [bind w_new_vec] in C.
    destruct (Nat.eqb _ _); cbn [w_new_vec w_new_mat] in C; injection C as <-; cbn [w_gears]; rewrite G1;
      (eexists; split; [reflexivity|]; split; [exact O1|reflexivity]). }
  destruct G2 as (ok & G2 & Ok2 & Cok).
  assert (Ni : nth_error (w_gears w2) i = Some o1).
  { rewrite G2, nth_error_app1 by (rewrite app_length; cbn; unfold i; lia). rewrite <- G1. exact N1. }
  assert (Nk : nth_error (w_gears w2) (Datatypes.S i) = Some ok).
  { rewrite G2, nth_error_app2 by (rewrite app_length; cbn; unfold i; lia).
    rewrite app_length. cbn [length]. unfold i. replace (Datatypes.S (length (w_gears w)) - (length (w_gears w) + 1))%nat with 0%nat by lia. reflexivity. }
  assert (Lk := nth_error_lt _ _ _ Nk). assert (Li := nth_error_lt _ _ _ Ni).
  unfold slice_pia in P. rewrite Nk, Ok2, Ni in P.
  cbn [step] in S3, S4.
  rewrite (proj2 (w_get_Ok w2 _ _) Ni) in S3. rewrite (proj2 (w_get_Ok w2 _ _) Nk) in S4. cbn [bind] in S3, S4.
  injection S3 as <-. injection S4 as <-. cbv [slice_pia]. cbn [w_put w_gears].
  split.
  - rewrite set_nth_other by lia. rewrite Nk, Ok2, set_nth_same by exact Li.
    rewrite <- P. cbn [o_in with_crown ip_height ip_crown]. intros Q. injection Q as Q. unfold crowning in Q.
    rewrite Cok, R1, I1 in Q.
    assert (E1 : ip_height (ip_normalise p) = ip_height p) by (unfold ip_normalise; destruct (Rlt_dec _ _); reflexivity).
    assert (E2 : ip_crown (ip_normalise p) = ip_crown p) by (unfold ip_normalise; destruct (Rlt_dec _ _); reflexivity).
    assert (E3 : ip_teeth (ip_normalise p) <> 0) by (unfold ip_normalise; destruct (Rlt_dec _ _); cbn; [intros X; apply T; lra|exact T]).
    rewrite E1, E2 in Q. set (u := z * 2 / ip_height p) in *. set (n := ip_teeth (ip_normalise p)) in *.
    assert (Q2 : (u - 1) * (u - 1) * (c - ip_crown p) / (n / 2) * / 1000 = 0).
    { replace ((u - 1) * (u - 1) * (c - ip_crown p) / (n / 2) * / 1000) with
        ((u - 1) * (u - 1) * c / (n / 2) * / 1000 - (u - 1) * (u - 1) * ip_crown p / (n / 2) * / 1000) by (field; exact E3).
      clear -Q. lra. }
    assert (X : (u - 1) * (u - 1) * (c - ip_crown p) = 0).
    { replace ((u - 1) * (u - 1) * (c - ip_crown p)) with ((u - 1) * (u - 1) * (c - ip_crown p) / (n / 2) * / 1000 * (500 * n)) by (field; exact E3).
      rewrite Q2. ring. }
    apply Rmult_integral in X as [X|X]; [apply Rmult_integral in X; lra|lra].
  - rewrite set_nth_same by exact Lk. cbn [o_owner o_core]. rewrite Ok2, set_nth_other by lia. rewrite Ni. exact P.
Qed.

(** calc_params on the copy makes it independent: its slices then follow its own parameters. *)
Theorem C73_recalculated_copy : forall cs w k g w1 es w2,
  run w_init cs = Ok w -> view w k = Some g -> step w (Calc k) = Ok w1 -> run w1 es = Ok w2 ->
  exists g2, view w2 k = Some g2 /\ forall z, slice_pia w2 k z = Some (ig_pia g2 z).
Proof.
  intros cs w k g w1 es w2 H V S E. apply view_Some in V as (o & N & ->).
  pose proof (run_wf _ _ _ wf_init H) as W.
  destruct (step_gear _ _ _ _ _ W S N) as (o1 & N1 & _).
  assert (O1 : o_owner o1 = k).
  { cbn [step] in S. rewrite (proj2 (w_get_Ok w k o) N) in S. cbn [bind] in S. injection S as <-.
    cbn [w_put w_gears] in N1. rewrite set_nth_same in N1 by apply (nth_error_lt _ _ _ N). injection N1 as <-. reflexivity. }
  destruct (run_owner _ _ _ _ _ (step_wf _ _ _ W S) E N1 (or_introl O1)) as (o2 & N2 & O2).
  exists (o_view w2 o2). split; [apply view_intro, N2|]. intros z. unfold slice_pia. rewrite N2, O2, O1, N2. reflexivity.
Qed.

Example C73_example : exists w,
  run w_init [New (ex_param 20 false) true; Copy 0; SetCrown 0 100] = Ok w /\
  slice_pia w 0 0 = Some (PI / 40 - / 100) /\ slice_pia w 1 0 = Some (PI / 40 - / 100) /\
  option_map (fun g => ip_crown (ig_in g)) (view w 1) = Some 0.
Proof.
  assert (E20 : ip_normalise (ex_param 20 false) = ex_param 20 false).
  { unfold ip_normalise. cbn [ip_teeth ex_param]. destruct (Rlt_dec 20 0); [lra|reflexivity]. }
  eexists. split; [cbn [run step w_new_vec bind w_gears w_init length app w_get nth_error]; rewrite E20; reflexivity|].
  cbv [slice_pia view w_put w_gears set_nth nth_error option_map app length o_owner o_calc o_in with_crown ip_height ip_crown ex_param o_core calc_params with_center k_rp k_tooth_angle ip_teeth ip_shift ip_alpha ip_backlash w_new_vec w_new_mat w_vecs w_mats Nat.eqb o_cen o_icen crowning ig_in o_view].
  split; [f_equal; field|]. split; [f_equal; field|]. reflexivity.
Qed.

(** ** C76: centres share arrays *)

(** For each gear: does it use the array ORIGIN for its centre, and for the centre among its
    parameters?  Read off the calls made. *)
Definition upd_track (i : nat) (f : bool * bool -> bool * bool) (t : list (bool * bool)) : list (bool * bool) :=
  match nth_error t i with Some b => set_nth i (f b) t | None => t end.
Definition track1 (t : list (bool * bool)) (c : op) : list (bool * bool) :=
  match c with
  | New _ d => t ++ [(d, d)]
  | Copy _ => t ++ [(false, false)]
  | MeshTo i _ _ _ _ _ _ _ | SetCenter i _ => upd_track i (fun b => (false, snd b)) t
  | Reset i => upd_track i (fun b => (true, snd b)) t
  | Calc i => upd_track i (fun b => (snd b, snd b)) t
  | _ => t
  end.
Definition track (cs : list op) : list (bool * bool) := fold_left track1 cs [].

(** Centre arrays of different gears are different unless both are ORIGIN. *)
Definition sep (w : world) (t : list (bool * bool)) : Prop :=
  length t = length (w_gears w) /\
  (forall i o b, nth_error (w_gears w) i = Some o -> nth_error t i = Some b ->
     (o_cen o = 0%nat <-> fst b = true) /\ (o_icen o = 0%nat <-> snd b = true)) /\
  (forall i j o1 o2, i <> j -> nth_error (w_gears w) i = Some o1 -> nth_error (w_gears w) j = Some o2 ->
     (o_cen o1 = o_cen o2 -> o_cen o1 = 0%nat) /\ (o_cen o1 = o_icen o2 -> o_cen o1 = 0%nat) /\
     (o_icen o1 = o_icen o2 -> o_icen o1 = 0%nat)).

Lemma nth_error_snoc {A} (l : list A) x i y : nth_error (l ++ [x]) i = Some y ->
  (nth_error l i = Some y /\ (i < length l)%nat) \/ (i = length l /\ y = x).
Proof.
  intros H. destruct (Nat.lt_ge_cases i (length l)) as [L|L].
  - left. rewrite nth_error_app1 in H by exact L. auto.
  - right. rewrite nth_error_app2 in H by exact L.
    destruct (i - length l)%nat as [|n] eqn:E; cbn in H; [injection H as <-; split; [lia|reflexivity]|destruct n; discriminate].
Qed.

Lemma sep_append w t vs ms o b : wf w -> sep w t ->
  (o_cen o = 0%nat <-> fst b = true) -> (o_icen o = 0%nat <-> snd b = true) ->
  (o_cen o = 0 \/ length (w_vecs w) <= o_cen o)%nat -> (o_icen o = 0 \/ length (w_vecs w) <= o_icen o)%nat ->
  sep (mkW vs ms (w_gears w ++ [o])) (t ++ [b]).
Proof.
  intros W (L & T & S) B1 B2 F1 F2. split; [cbn [w_gears]; rewrite !app_length, L; reflexivity|].
  cbn [w_gears]. split.
  - intros i o1 b1 N1 N2. apply nth_error_snoc in N1. apply nth_error_snoc in N2.
    destruct N1 as [[N1 L1]|[-> ->]], N2 as [[N2 L2]|[I2 ->]]; try (exfalso; lia); [apply (T i); assumption|auto].
  - intros i j o1 o2 D N1 N2. apply nth_error_snoc in N1. apply nth_error_snoc in N2.
    destruct N1 as [[N1 L1]|[-> ->]], N2 as [[N2 L2]|[I2 ->]].
    + apply (S i j o1 o2 D N1 N2).
    + destruct (wf_get _ _ _ W N1) as (A & B & _). lia.
    + destruct (wf_get _ _ _ W N2) as (A & B & _). lia.
    + lia.
Qed.

Lemma nth_upd_track i f t j b : nth_error (upd_track i f t) j = Some b ->
  (i = j /\ exists b0, nth_error t i = Some b0 /\ b = f b0) \/ (i <> j /\ nth_error t j = Some b).
Proof.
  unfold upd_track. destruct (nth_error t i) as [b0|] eqn:E; intros H.
  - destruct (Nat.eq_dec i j) as [->|D].
    + rewrite set_nth_same in H by apply (nth_error_lt _ _ _ E). injection H as <-. left. eauto.
    + rewrite set_nth_other in H by exact D. right. auto.
  - destruct (Nat.eq_dec i j) as [->|D]; [congruence|]. right. auto.
Qed.
Lemma length_upd_track i f t : length (upd_track i f t) = length t.
Proof. unfold upd_track. destruct (nth_error t i); [apply set_nth_length|reflexivity]. Qed.

Lemma sep_update w t vs ms i o o' f : wf w -> sep w t -> nth_error (w_gears w) i = Some o ->
  o_icen o' = o_icen o -> (forall b, snd (f b) = snd b) ->
  ((o_cen o' = 0%nat /\ forall b, fst (f b) = true) \/
   ((0 < length (w_vecs w) <= o_cen o')%nat /\ forall b, fst (f b) = false) \/
   (o_cen o' = o_icen o /\ forall b, fst (f b) = snd b) \/
   (o_cen o' = o_cen o /\ forall b, fst (f b) = fst b)) ->
  sep (mkW vs ms (set_nth i o' (w_gears w))) (upd_track i f t).
Proof.
  intros W (L & T & S) N EI FS C. pose proof (nth_error_lt _ _ _ N) as Li.
  split; [cbn [w_gears]; rewrite length_upd_track, set_nth_length; exact L|]. cbn [w_gears].
  assert (NE : forall j x, nth_error (set_nth i o' (w_gears w)) j = Some x ->
     (j = i /\ x = o') \/ (j <> i /\ nth_error (w_gears w) j = Some x)).
  { intros j x H. destruct (Nat.eq_dec i j) as [<-|D].
    - rewrite set_nth_same in H by exact Li. injection H as <-. auto.
    - rewrite set_nth_other in H by exact D. right. split; [congruence|exact H]. }
  split.
  - intros j x b H1 H2. apply NE in H1. apply nth_upd_track in H2.
    destruct H1 as [[-> ->]|[D1 H1]], H2 as [[E2 (b0 & H2 & ->)]|[D2 H2]];
      [|exfalso; apply D2; reflexivity|exfalso; apply D1; symmetry; exact E2|].
    + destruct (T i o b0 N H2) as [T1 T2]. rewrite EI, FS. split; [|exact T2].
      destruct C as [[-> F]|[[G F]|[[-> F]|[-> F]]]]; rewrite F; [tauto| |exact T2|exact T1].
      split; [lia|discriminate].
    + apply (T j); assumption.
  - intros j k x y D H1 H2. apply NE in H1. apply NE in H2.
    destruct H1 as [[-> ->]|[D1 H1]], H2 as [[K2 ->]|[D2 H2]]; [exfalso; apply D; symmetry; exact K2| |subst k|].
    + destruct (S i k o y D N H2) as (S1 & S2 & S3).
      assert (S4 : o_icen o = o_cen y -> o_icen o = 0%nat).
      { intros Q. destruct (S k i y o ltac:(auto) H2 N) as (_ & X & _). rewrite Q. apply X. auto. }
      destruct (wf_get _ _ _ W H2) as (A & B & _). rewrite EI.
      destruct C as [[-> _]|[[G _]|[[-> _]|[-> _]]]]; repeat split; auto; intros; try lia.
    + destruct (S j i x o D H1 N) as (S1 & S2 & S3).
      destruct (wf_get _ _ _ W H1) as (A & B & _). rewrite EI.
      destruct C as [[-> _]|[[G _]|[[-> _]|[-> _]]]]; repeat split; auto; intros; try lia.
    + apply (S j k x y D H1 H2).
Qed.

Lemma upd_track_id i t : upd_track i (fun b => b) t = t.
Proof. unfold upd_track. destruct (nth_error t i) eqn:E; [apply set_nth_id, E|reflexivity]. Qed.

Lemma sep_step w t c w' : wf w -> sep w t -> step w c = Ok w' -> sep w' (track1 t c).
Proof.
  intros W SP S. assert (W0 := W). destruct W0 as (W1 & W2 & W3).
  assert (ID : forall vs ms i o o', nth_error (w_gears w) i = Some o -> o_icen o' = o_icen o -> o_cen o' = o_cen o ->
     sep (mkW vs ms (set_nth i o' (w_gears w))) t).
  { intros vs ms i o o' N E1 E2. rewrite <- (upd_track_id i t).
    apply (sep_update w t vs ms i o o' (fun b => b)); auto 6. }
  destruct c as [p d|i j sg so a tt bl bias|i|i v|i v|i a|i m|i m|i|i|i m|i c|i c|i]; cbn [step track1] in S |- *.
  - destruct d; cbn [w_new_vec] in S; injection S as <-; cbn [w_vecs w_mats w_gears];
      apply sep_append; try assumption; cbn [o_calc o_cen o_icen fst snd];
      try (split; intros; reflexivity); try (split; [intros Q; exfalso; lia|discriminate]); lia.
  - destruct (mesh_inv _ _ _ _ _ _ _ _ _ _ W S) as (g & o2 & v0 & ms & lm & ang & Gi & Gj & -> & LM).
    apply (sep_update w t _ _ i g); [assumption|assumption|assumption|reflexivity|reflexivity|]. right. left. cbn [o_move o_cen fst]. split; [lia|reflexivity].
  - destruct (w_get w i) as [o1|e] eqn:G; cbn [bind] in S; [|discriminate]. apply w_get_Ok in G.
    injection S as <-. apply (sep_update w t _ _ i o1); [assumption|assumption|assumption|reflexivity|reflexivity|]. left. split; reflexivity.
  - destruct (w_get w i) as [o1|e] eqn:G; cbn [bind] in S; [|discriminate]. apply w_get_Ok in G.
    cbn [w_new_vec] in S. injection S as <-. unfold w_put. cbn [w_gears].
    apply (sep_update w t _ _ i o1); [assumption|assumption|assumption|reflexivity|reflexivity|]. right. left. cbn [o_move o_cen fst]. split; [lia|reflexivity].
  - destruct (w_get w i) as [o1|e] eqn:G; cbn [bind] in S; [|discriminate]. injection S as <-. exact SP.
  - destruct (w_get w i) as [o1|e] eqn:G; cbn [bind] in S; [|discriminate]. apply w_get_Ok in G.
    injection S as <-. apply (ID _ _ i o1); auto.
  - destruct (w_get w i) as [o1|e] eqn:G; cbn [bind] in S; [|discriminate]. apply w_get_Ok in G.
    cbn [w_new_mat] in S. injection S as <-. unfold w_put. cbn [w_gears]. apply (ID _ _ i o1); auto.
  - destruct (w_get w i) as [o1|e] eqn:G; cbn [bind] in S; [|discriminate]. injection S as <-. exact SP.
  - destruct (w_get w i) as [o1|e] eqn:G; cbn [bind] in S; [|discriminate]. apply w_get_Ok in G.
    injection S as <-. apply (ID _ _ i o1); auto.
  - destruct (w_get w i) as [o1|e] eqn:G; cbn [bind] in S; [|discriminate].
    cbn [w_new_vec] in S. destruct (Nat.eqb _ _); cbn [w_new_vec w_new_mat w_vecs w_mats w_gears] in S; injection S as <-; cbn [w_vecs w_mats w_gears];
      apply sep_append; try assumption; cbn [o_cen o_icen fst snd]; rewrite ?app_length; cbn [length];
      try (split; [intros Q; exfalso; lia|discriminate]); lia.
  - destruct (w_get w i) as [o1|e] eqn:G; cbn [bind] in S; [|discriminate]. apply w_get_Ok in G.
    injection S as <-. apply (ID _ _ i o1); auto.
  - destruct (w_get w i) as [o1|e] eqn:G; cbn [bind] in S; [|discriminate]. injection S as <-. exact SP.
  - destruct (w_get w i) as [o1|e] eqn:G; cbn [bind] in S; [|discriminate]. apply w_get_Ok in G.
    injection S as <-. apply (ID _ _ i o1); auto.
  - destruct (w_get w i) as [o1|e] eqn:G; cbn [bind] in S; [|discriminate]. apply w_get_Ok in G.
    injection S as <-. unfold w_put. apply (sep_update w t _ _ i o1); [assumption|assumption|assumption|reflexivity|reflexivity|]. right. right. left. auto.
Qed.

Lemma sep_run cs : forall w t w', wf w -> sep w t -> run w cs = Ok w' -> sep w' (fold_left track1 cs t).
Proof.
  induction cs as [|c cs IH]; intros w t w' W S H; cbn [run fold_left] in *; [injection H as <-; exact S|].
  destruct (step w c) as [w1|e] eqn:E; cbn [bind] in H; [|discriminate].
  apply (IH w1); [apply (step_wf _ _ _ W E)|apply (sep_step _ _ _ _ W S E)|exact H].
Qed.
Lemma sep_init : sep w_init [].
Proof.
  split; [reflexivity|]. split; cbn [w_init w_gears]; intros.
  - destruct i; discriminate.
  - destruct i; discriminate.
Qed.

(** [gear.center += v] also moves every other gear whose centre is the shared origin, if this
    gear's is: those left at the default centre and those reset. *)
Theorem C76_in_place_move : forall cs w i v w' j g bi bj,
  run w_init cs = Ok w -> step w (AddCenter i v) = Ok w' ->
  nth_error (track cs) i = Some bi -> nth_error (track cs) j = Some bj -> view w j = Some g ->
  exists g', view w' j = Some g' /\
    trf_of g' = mkG (if (Nat.eqb i j || fst bi && fst bj)%bool then vadd (g_center (trf_of g)) v else g_center (trf_of g))
                    (g_orient (trf_of g)) (g_scale (trf_of g)) (g_angle (trf_of g)).
Proof.
  intros cs w i v w' j g bi bj H S Bi Bj V. pose proof (run_wf _ _ _ wf_init H) as W.
  destruct (sep_run cs w_init [] w wf_init sep_init H) as (L & T & SP). fold (track cs) in *.
  apply view_Some in V as (o & N & ->). cbn [step] in S.
  destruct (w_get w i) as [oi|e] eqn:G; cbn [bind] in S; [|discriminate]. apply w_get_Ok in G. injection S as <-.
  eexists. split; [apply view_intro; cbn [w_gears]; exact N|].
  unfold trf_of. cbn [o_view ig_core with_trf k_trf]. unfold o_trf, w_mat, w_vec. cbn [w_vecs w_mats g_center g_orient g_scale g_angle].
  f_equal. destruct (wf_get _ _ _ W G) as (A & _ & _). rewrite nth_set_nth by exact A.
  destruct (T i oi bi G Bi) as [Ti _]. destruct (T j o bj N Bj) as [Tj _].
  destruct (Nat.eqb_spec i j) as [->|D].
  - rewrite G in N. injection N as <-. rewrite Nat.eqb_refl. reflexivity.
  - cbn [orb]. destruct (SP i j oi o D G N) as (S1 & _ & _).
    destruct (Nat.eqb_spec (o_cen oi) (o_cen o)) as [E|E].
    + specialize (S1 E). rewrite (proj1 Ti S1), (proj1 Tj) by congruence. cbn [andb]. rewrite <- E. reflexivity.
    + destruct (fst bi) eqn:F1, (fst bj) eqn:F2; cbn [andb]; try reflexivity.
      exfalso. apply E. rewrite (proj2 Ti eq_refl), (proj2 Tj eq_refl). reflexivity.
Qed.

(** From then on the default centre of new gears, and the centre set by reset_location, is the
    sum of all such moves. *)
Fixpoint origin_drift (t : list (bool * bool)) (acc : vec) (cs : list op) : vec :=
  match cs with
  | [] => acc
  | c :: r => origin_drift (track1 t c)
                (match c with
                 | AddCenter i v => match nth_error t i with Some (true, _) => vadd acc v | _ => acc end
                 | _ => acc end) r
  end.

Lemma drift_run cs : forall w t w', wf w -> sep w t -> run w cs = Ok w' ->
  w_vec w' 0 = origin_drift t (w_vec w 0) cs.
Proof.
  induction cs as [|c cs IH]; intros w t w' W S H; cbn [run origin_drift] in *; [injection H as <-; reflexivity|].
  destruct (step w c) as [w1|e] eqn:E; cbn [bind] in H; [|discriminate].
  rewrite (IH w1 (track1 t c) w' (step_wf _ _ _ W E) (sep_step _ _ _ _ W S E) H). f_equal.
  destruct (in_place c) eqn:IP.
  - destruct c as [| | | |i v| | |i m| | | | | |]; try discriminate IP; cbn [step] in E;
      (destruct (w_get w i) as [oi|e] eqn:G; cbn [bind] in E; [|discriminate]); apply w_get_Ok in G; injection E as <-.
    + destruct S as (L & T & _). pose proof (nth_error_lt _ _ _ G) as Li.
      destruct (nth_error t i) as [[b1 b2]|] eqn:Bt; [|apply nth_error_None in Bt; lia].
      destruct (T i oi (b1, b2) G Bt) as [Ti _]. cbn [fst] in Ti.
      destruct (wf_get _ _ _ W G) as (A & _ & _).
      unfold w_vec at 1. cbn [w_vecs]. rewrite nth_set_nth by exact A.
      destruct b1.
      * rewrite (proj2 Ti eq_refl), Nat.eqb_refl. reflexivity.
      * destruct (Nat.eqb_spec (o_cen oi) 0) as [Z|Z]; [apply Ti in Z; discriminate|reflexivity].
    + reflexivity.
  - destruct W as (W1 & W2 & W3).
    rewrite (grows_vec w w1); [destruct c; try reflexivity; discriminate IP|apply (step_shape _ _ _ (conj W1 (conj W2 W3)) E IP)|exact W1].
Qed.

Theorem C76_origin_drifts : forall cs w,
  run w_init cs = Ok w ->
  let origin := origin_drift [] ORIGIN cs in
  (forall p w', step w (New p true) = Ok w' ->
     exists g, view w' (length (w_gears w)) = Some g /\ g_center (trf_of g) = origin) /\
  (forall i w', step w (Reset i) = Ok w' ->
     exists g, view w' i = Some g /\ g_center (trf_of g) = origin).
Proof.
  intros cs w H origin. pose proof (drift_run cs w_init [] w wf_init sep_init H) as E.
  change (w_vec w_init 0) with ORIGIN in E. fold origin in E. split.
  - intros p w' S. cbn [step] in S. injection S as <-. eexists. split.
    + apply view_intro. cbn [w_gears]. rewrite nth_error_app2, Nat.sub_diag by lia. reflexivity.
    + exact E.
  - intros i w' S. cbn [step] in S. destruct (w_get w i) as [o|e] eqn:G; cbn [bind] in S; [|discriminate].
    apply w_get_Ok in G. injection S as <-. eexists. split.
    + apply view_intro. cbn [w_put w_gears]. apply set_nth_same, (nth_error_lt _ _ _ G).
    + exact E.
Qed.

(** Two default gears: moving one moves the other, and the next one is born displaced. *)
Example C76_example : exists w g0 g1 g2,
  run w_init [New (ex_param 20 false) true; New (ex_param 40 false) true; AddCenter 0 (V 5 0 0);
              New (ex_param 60 false) true] = Ok w /\
  view w 0 = Some g0 /\ view w 1 = Some g1 /\ view w 2 = Some g2 /\
  g_center (trf_of g0) = V 5 0 0 /\ g_center (trf_of g1) = V 5 0 0 /\ g_center (trf_of g2) = V 5 0 0.
Proof.
  do 4 eexists. do 4 (split; [reflexivity|]).
  assert (E : vadd ORIGIN (V 5 0 0) = V 5 0 0) by (apply vec_eq; vec_simpl; ring).
  repeat split; exact E.
Qed.
