(** C129: NURBSCurve.update_inactive_continuity. *)
From Coq Require Import Reals List Bool Lra Lia.
From Verif Require Import Num Vec Bezier Interp Curve CurveLem CurveProps Chain ChainLem ChainProps Profile Fillet FromChain FromChainProps BezierLem BezierProps.
From Verif Require Import Collapse.
Import ListNotations.
Open Scope R_scope.

(** The place between the active curves [f] and the active curves [g]: the end of [f], or the start of [g] if nothing
    comes before. *)
Definition joint (f g : list curve) : vec :=
  match rev f with
  | z :: _ => c_eval z 1
  | [] => match g with y :: _ => c_eval y 0 | [] => ORIGIN end
  end.

Lemma filter_firstn_app (d r : list curve) c : c_act c = false -> filter c_act (d ++ c :: r) = filter c_act d ++ filter c_act r.
Proof. intros H. rewrite filter_app. cbn. rewrite H. reflexivity. Qed.

Lemma joint_eval a d c r : c_act c = false -> positive (filter c_act d ++ filter c_act r) ->
  n_eval (Chain a (map Prim (d ++ c :: r))) (fst (get_t_for_index (map Prim (d ++ c :: r)) (length d))) =
  Ok (joint (filter c_act d) (filter c_act r)).
Proof.
  intros A P. set (l := map Prim (d ++ c :: r)).
  assert (LV : leaves_of l = filter c_act d ++ filter c_act r) by (unfold l; rewrite prim_leaves; apply filter_firstn_app, A).
  pose proof (positive_total _ P) as TP.
  rewrite C37_travel by (apply positive_wf_chain; rewrite LV; exact P).
  assert (T : fst (get_t_for_index l (length d)) * total (leaves_of l) = total (filter c_act d)).
  { unfold get_t_for_index. cbn [fst]. rewrite portions_nth.
    2:{ unfold length_array, l. rewrite !map_length, app_length. cbn. lia. }
    rewrite length_array_firstn, !length_array_leaves.
    replace (firstn (length d) l) with (map Prim d).
    2:{ unfold l. rewrite map_app, firstn_app, map_length, Nat.sub_diag, firstn_O, app_nil_r, <- (map_length Prim d), firstn_all. reflexivity. }
    rewrite prim_leaves, LV. field. lra. }
  rewrite T, LV. f_equal. unfold joint.
  destruct (rev (filter c_act d)) as [|z q] eqn:E.
  - assert (D : filter c_act d = []) by (rewrite <- (rev_involutive (filter c_act d)), E; reflexivity).
    rewrite D in *. cbn [app] in *. unfold total. cbn [map lsum]. destruct P as [N P]. destruct (filter c_act r) as [|y w]; [contradiction|].
    inversion P; subst. apply walk_start. assumption.
  - assert (D : filter c_act d = rev q ++ [z]) by (rewrite <- (rev_involutive (filter c_act d)), E; reflexivity).
    rewrite D in *. destruct P as [N P]. apply Forall_app in P. destruct P as [P1 P2]. pose proof P1 as P0. apply Forall_app in P0.
    destruct P0 as [P3 P4]. inversion P4; subst.
    rewrite walk_app_l.
    + apply walk_end; [|assumption]. eapply Forall_impl; [|exact P3]. cbn. intros. lra.
    + eapply Forall_impl; [|exact P1]. cbn. intros. lra.
    + destruct (rev q); discriminate.
    + right. lra.
Qed.

(** What happens to one member, [f] and [g] being the active curves before and after it. *)
Definition collapsed (f g : list curve) (c c' : curve) : Prop :=
  (c_act c = true -> c' = c) /\
  (c_act c = false -> c_act c' = false /\ exists pts ws, c_shape c = SNurb pts ws /\
     c_shape c' = SNurb (repeat (joint f g) (length pts)) ws).

Lemma map_const {A B} (p : B) (l : list A) : map (fun _ => p) l = repeat p (length l).
Proof. induction l; cbn; [reflexivity | f_equal; assumption]. Qed.

Lemma collapse_spec a todo : forall d0 d, filter c_act d = filter c_act d0 ->
  positive (filter c_act d0 ++ filter c_act todo) -> List.Forall (fun c => c_act c = false -> is_nurb c) todo ->
  exists r', collapse_from a d todo = Ok (d ++ r') /\ length r' = length todo /\ filter c_act r' = filter c_act todo /\
  forall k c, nth_error todo k = Some c -> exists c', nth_error r' k = Some c' /\
    collapsed (filter c_act (d0 ++ firstn k todo)) (filter c_act (skipn k todo)) c c'.
Proof.
  induction todo as [|c r IH]; intros d0 d FD P N.
  - exists []. cbn. rewrite app_nil_r. repeat split. intros [|k] c; discriminate.
  - inversion N as [|? ? Nc Nr]; subst. cbn [collapse_from]. destruct (c_act c) eqn:A.
    + destruct (IH (d0 ++ [c]) (d ++ [c])) as (r' & E & L & F & K); [rewrite !filter_app; congruence | | exact Nr |].
      { rewrite filter_app. cbn. rewrite A. cbn [filter] in P. rewrite A in P. rewrite <- app_assoc. exact P. }
      exists (c :: r'). split; [rewrite E, <- app_assoc; reflexivity|]. split; [cbn; lia|].
      split; [cbn; rewrite A; f_equal; exact F|].
      intros [|k] c0 H.
      * injection H as <-. exists c. split; [reflexivity|]. split; [reflexivity | congruence].
      * destruct (K k c0 H) as (c' & H1 & H2). exists c'. split; [exact H1|]. cbn [firstn skipn].
        rewrite <- app_assoc in H2. exact H2.
    + destruct (Nc eq_refl) as (pts & ws & SH). cbn [filter] in P. rewrite A in P.
      rewrite joint_eval; [|exact A|rewrite FD; exact P]. cbn [bind]. rewrite SH.
      set (c1 := set_all_points c pts ws (joint (filter c_act d) (filter c_act r))).
      assert (A1 : c_act c1 = false) by exact A.
      destruct (IH (d0 ++ [c]) (d ++ [c1])) as (r' & E & L & F & K); [| | exact Nr |].
      { rewrite !filter_app. cbn [filter]. rewrite A, A1, FD. reflexivity. }
      { rewrite filter_app. cbn. rewrite A. rewrite app_nil_r. exact P. }
      exists (c1 :: r'). split; [rewrite E, <- app_assoc; reflexivity|]. split; [cbn; lia|].
      split; [cbn [filter]; rewrite A, A1; exact F|].
      intros [|k] c0 H.
      * injection H as <-. exists c1. split; [reflexivity|]. split; [congruence|]. intros _. split; [exact A1|].
        exists pts, ws. split; [exact SH|]. cbn [firstn skipn]. rewrite app_nil_r. cbn [filter]. rewrite A, <- FD.
        unfold c1, set_all_points. cbn [c_shape]. rewrite map_const. reflexivity.
      * destruct (K k c0 H) as (c' & H1 & H2). exists c'. split; [exact H1|]. cbn [firstn skipn].
        rewrite <- app_assoc in H2. exact H2.
Qed.

(** Active members stay as they are; every inactive member keeps its weights and the number of its control points, all of
    which move to the end of the active curve before it (the start of the first one if there is none). *)
Theorem C129_members : forall a cs, positive (filter c_act cs) -> List.Forall (fun c => c_act c = false -> is_nurb c) cs ->
  exists cs', update_inactive_continuity a cs = Ok cs' /\ length cs' = length cs /\
  forall k c, nth_error cs k = Some c -> exists c', nth_error cs' k = Some c' /\
    collapsed (filter c_act (firstn k cs)) (filter c_act (skipn k cs)) c c'.
Proof.
  intros a cs P N. destruct (collapse_spec a cs [] [] eq_refl P N) as (r' & E & L & _ & K). exists r'. auto.
Qed.

(** The curve itself has the points it had. *)
Theorem C129_points : forall a cs cs', positive (filter c_act cs) -> List.Forall (fun c => c_act c = false -> is_nurb c) cs ->
  update_inactive_continuity a cs = Ok cs' ->
  n_length (Chain a (map Prim cs')) = n_length (Chain a (map Prim cs)) /\
  forall s, n_eval (Chain a (map Prim cs')) s = n_eval (Chain a (map Prim cs)) s.
Proof.
  intros a cs cs' P N E. destruct (collapse_spec a cs [] [] eq_refl P N) as (r' & E' & _ & F & _).
  unfold update_inactive_continuity in E. rewrite E in E'. injection E' as ->. cbn [app].
  assert (LV : leaves_of (map Prim r') = leaves_of (map Prim cs)) by (rewrite !prim_leaves; exact F).
  split.
  - transitivity (total (leaves_of (map Prim r'))); [apply length_array_leaves|]. rewrite LV. symmetry. apply length_array_leaves.
  - intros s. rewrite !C37_travel, LV; [reflexivity | |]; apply positive_wf_chain; rewrite ?LV, prim_leaves; exact P.
Qed.

(** A collapsed member is that one point all along. *)
Theorem C129_constant : forall p ws t, ws <> [] -> List.Forall (fun w => 0 < w) ws -> 0 <= t <= 1 ->
  nurbezier t (repeat p (length ws)) ws = p.
Proof.
  intros p ws t N W T. unfold nurbezier.
  assert (E : wpoints (repeat p (length ws)) ws = map (fun w => smul w p) ws).
  { clear. induction ws as [|w r IH]; [reflexivity|]. unfold wpoints in *. cbn. f_equal. exact IH. }
  rewrite E, (bezierdc_map (fun w => smul w p)).
  2: exact N.
  2:{ intros a b. destruct p as [x y z]. unfold lerp2. cbn. unfold smul, vadd. cbn. f_equal; ring. }
  pose proof (bezierdc_pos t ws T N W) as B. destruct p. unfold smul. cbn. f_equal; (field; lra).
Qed.

(** Between two active curves that join, a collapsed member leaves no gap: the place is the start of the next one too. *)
Theorem C129_no_gap : forall cs k y g, joined (filter c_act cs) -> filter c_act (skipn k cs) = y :: g ->
  joint (filter c_act (firstn k cs)) (filter c_act (skipn k cs)) = c_eval y 0.
Proof.
  intros cs k y g J H. rewrite <- (firstn_skipn k cs), filter_app, H in J. rewrite H.
  set (f := filter c_act (firstn k cs)) in *. clearbody f.
  unfold joint. destruct (rev f) as [|z q] eqn:E; [reflexivity|].
  assert (D : f = rev q ++ [z]) by (rewrite <- (rev_involutive f), E; reflexivity). rewrite D in J. clear - J.
  rewrite <- app_assoc in J. induction (rev q) as [|x w IH]; cbn [app joined] in J.
  - destruct J as [J _]. exact J.
  - apply IH. destruct w; apply J.
Qed.

Example C129_members_example : positive (filter c_act [piece ORIGIN RIGHT true; piece UP UP false; piece RIGHT UP true]) /\
  List.Forall (fun c => c_act c = false -> is_nurb c) [piece ORIGIN RIGHT true; piece UP UP false; piece RIGHT UP true] /\
  joint [piece ORIGIN RIGHT true] [piece RIGHT UP true] = RIGHT.
Proof.
  assert (N1 : ORIGIN <> RIGHT) by (intros E; apply (f_equal vx) in E; cbn in E; lra).
  assert (N2 : RIGHT <> UP) by (intros E; apply (f_equal vx) in E; cbn in E; lra).
  split; [|split].
  - split; [discriminate|]. cbn [filter piece]. repeat constructor; apply piece_length; assumption.
  - repeat constructor; intros _; eexists; eexists; reflexivity.
  - unfold joint. cbn [rev app]. unfold piece. rewrite fresh_end; [|apply new_fresh|apply NDIV_ge].
    change (nurbezier 1 [ORIGIN; RIGHT] [1; 1] = RIGHT). rewrite piece_fun. unfold vadd, smul, vsub, ORIGIN, RIGHT. cbn. f_equal; ring.
Qed.
Example C129_points_example : exists cs', positive (filter c_act [piece ORIGIN RIGHT true; piece UP UP false; piece RIGHT UP true]) /\
  List.Forall (fun c => c_act c = false -> is_nurb c) [piece ORIGIN RIGHT true; piece UP UP false; piece RIGHT UP true] /\
  update_inactive_continuity true [piece ORIGIN RIGHT true; piece UP UP false; piece RIGHT UP true] = Ok cs'.
Proof.
  destruct C129_members_example as (P & N & _). destruct (C129_members true _ P N) as (cs' & E & _). exists cs'. auto.
Qed.
Example C129_no_gap_example : joined (filter c_act [piece ORIGIN RIGHT true; piece UP UP false; piece RIGHT UP true]) /\
  filter c_act (skipn 1 [piece ORIGIN RIGHT true; piece UP UP false; piece RIGHT UP true]) = [piece RIGHT UP true].
Proof.
  split; [|reflexivity]. cbn [filter piece joined]. change (c_act (piece ORIGIN RIGHT true)) with true.
  change (c_act (piece UP UP false)) with false. change (c_act (piece RIGHT UP true)) with true. cbn [joined]. split; [|exact I].
  rewrite piece_start. unfold piece. rewrite fresh_end; [|apply new_fresh|apply NDIV_ge].
  change (nurbezier 1 [ORIGIN; RIGHT] [1; 1] = RIGHT). rewrite piece_fun. unfold vadd, smul, vsub, ORIGIN, RIGHT. cbn. f_equal; ring.
Qed.
Example C129_constant_example : [1; 1 / 2; 1] <> [] /\ List.Forall (fun w => 0 < w) [1; 1 / 2; 1] /\ 0 <= 1 / 3 <= 1.
Proof. split; [discriminate|]. split; [repeat constructor; lra | lra]. Qed.
