(** C36-C39: chains of curves. *)
From Coq Require Import Reals ZArith Lra Lia Psatz List Bool.
From Verif Require Import Num Vec Coords Bezier Interp Curve CurveLem CurveProps ArcLem ArcProps Chain ChainLem.
Import ListNotations.
Open Scope R_scope.

(** ** C36 *)

(** [wf] (ChainLem.v): active lengths are not negative, the chain and every active nested chain have
    positive length.  Then every real parameter selects an existing, active member. *)
Theorem C36_selects_active a l s : wf (Chain a l) ->
  exists i u n, get_s_index l s = Ok (i, u) /\ nth_error l i = Some n /\ n_active n = true.
Proof.
  intros W. destruct (get_index_spec a l s W) as (l1 & n & l2 & u & SP & E & An & _).
  exists (length l1), u, n. split; [exact E|]. split; [|exact An].
  rewrite SP, nth_error_app2, Nat.sub_diag by lia. reflexivity.
Qed.

(** A member of positive length is selected strictly inside the chain. *)
Theorem C36_selects_positive a l s : wf (Chain a l) -> 0 < s <= 1 ->
  exists i u n, get_s_index l s = Ok (i, u) /\ nth_error l i = Some n /\ 0 < n_length n /\ 0 <= u <= 1.
Proof.
  intros W Hs. pose proof W as W0. apply wf_chain in W0. destruct W0 as [TP WF].
  destruct (get_index_spec a l s W) as (l1 & n & l2 & u & SP & E & An & F1 & F2 & F3 & F4).
  exists (length l1), u, n. split; [exact E|]. split.
  { rewrite SP, nth_error_app2, Nat.sub_diag by lia. reflexivity. }
  rewrite Forall_forall in WF.
  assert (Hin : In n l) by (rewrite SP; apply in_app_iff; right; left; reflexivity).
  pose proof (wf_length n An (WF n Hin An)) as L0.
  assert (T : total (leaves_of l) = total (leaves_of l1) + n_length n + total (leaves_of l2)).
  { rewrite SP, leaves_app, total_app. change (leaves_of (n :: l2)) with (leaves n ++ leaves_of l2).
    rewrite total_app, <- (length_leaves n An). ring. }
  assert (N1 : 0 <= total (leaves_of l1)).
  { apply total_nonneg, leaves_of_nonneg, Forall_forall. intros m Hm. apply WF. rewrite SP. apply in_app_iff. auto. }
  assert (A1 : total (leaves_of l1) < s * total (leaves_of l)).
  { destruct (leaves_of l1) eqn:Q; [|apply F3; discriminate]. change (total []) with 0. nra. }
  assert (A2 : s * total (leaves_of l) <= total (leaves_of l1) + n_length n).
  { destruct (leaves_of l2) eqn:Q; [|apply F4; discriminate]. change (total []) with 0 in T. nra. }
  assert (P : 0 < n_length n) by lra. split; [exact P|].
  specialize (F1 ltac:(lra)). split; nra.
Qed.

(** Without any active member evaluation is an IndexError, for every parameter. *)
Theorem C36_no_active a l s : existsb n_active l = false -> n_eval (Chain a l) s = Err IndexError.
Proof.
  intros H. change (n_eval (Chain a l) s) with
    (bind (get_s_index l s) (fun iu => nth (fst iu) (map n_eval l) (fun _ => Err IndexError) (snd iu))).
  unfold get_s_index. rewrite s_index_none; [reflexivity| |].
  - unfold length_array. rewrite !map_length. reflexivity.
  - clear s. induction l as [|m l IH]; [reflexivity|]. cbn in *.
    apply orb_false_iff in H. destruct H as [-> H]. apply IH, H.
Qed.
Example C36_no_active_example : n_eval (Chain true [Prim (line_curve ORIGIN RIGHT false)]) (1/2) = Err IndexError.
Proof. apply C36_no_active. reflexivity. Qed.

(** With active members of total length zero the result is 0/0 (nan). *)
Theorem C36_zero_length a l s : existsb n_active l = true -> lsum (length_array l) = 0 ->
  n_eval (Chain a l) s = Err ZeroDivisionError.
Proof.
  intros H Z. change (n_eval (Chain a l) s) with
    (bind (get_s_index l s) (fun iu => nth (fst iu) (map n_eval l) (fun _ => Err IndexError) (snd iu))).
  assert (EX : existsb (fun b => b) (map n_active l) = true).
  { clear Z s. induction l as [|m l IH]; [discriminate|]. cbn in *. destruct (n_active m); [reflexivity|]. apply IH, H. }
  destruct (min_max_spec _ EX) as (mi & ma & E1 & E2 & B & _). rewrite map_length in B.
  unfold get_s_index, s_index. rewrite E1, E2, portions_length.
  replace (length (length_array l)) with (length l) by (unfold length_array; rewrite map_length; reflexivity).
  set (k0 := searchsorted _ _). set (k1 := if (S ma <? k0)%nat then S ma else k0).
  set (k2 := if (k1 <? S mi)%nat then S mi else k1).
  assert (K2 : (k2 <= S ma)%nat).
  { unfold k2, k1. destruct (S ma <? k0)%nat eqn:Q1; destruct (_ <? S mi)%nat eqn:Q2;
      repeat match goal with H : (_ <? _)%nat = true |- _ => apply Nat.ltb_lt in H
                           | H : (_ <? _)%nat = false |- _ => apply Nat.ltb_ge in H end; lia. }
  destruct (S (length l) <=? k2)%nat eqn:Q; [apply Nat.leb_le in Q; lia|].
  destruct (Req_EM_T (lsum (length_array l)) 0); [reflexivity|contradiction].
Qed.

(** ** C37 *)

(** Evaluating a chain, nested or not, for every real [s]: travel [s] times the total length along the
    active single curves ([walk], ChainLem.v). *)
Theorem C37_travel a l s : wf (Chain a l) ->
  n_eval (Chain a l) s = Ok (walk (leaves_of l) (s * total (leaves_of l))).
Proof.
  intros W. pose proof W as W0. apply wf_chain in W0. destruct W0 as [TP WF].
  assert (A : n_active (Chain true l) = true).
  { apply active_leaves. change (leaves_of l <> []). intros Q. rewrite Q in TP. unfold total in TP. cbn in TP. lra. }
  assert (TL : n_length (Chain true l) = total (leaves_of l)) by apply length_array_leaves.
  change (n_eval (Chain a l) s) with (n_eval (Chain true l) s).
  destruct (chain_eval_walk (Chain true l) A W s) as [H _]. rewrite H by lra. rewrite TL. reflexivity.
Qed.

(** The index search at one level: earlier lengths + local parameter * own length = s * total. *)
Theorem C37_proportional a l s : wf (Chain a l) -> 0 < s <= 1 ->
  exists i u n, get_s_index l s = Ok (i, u) /\ nth_error l i = Some n /\
    lsum (firstn i (length_array l)) + u * n_length n = s * lsum (length_array l).
Proof.
  intros W Hs. destruct (C36_selects_positive a l s W Hs) as (i & u & n & E & NE & P & B).
  exists i, u, n. split; [exact E|]. split; [exact NE|].
  destruct (get_index_spec a l s W) as (l1 & m & l2 & v & SP & E' & An & F1 & _).
  rewrite E in E'. injection E' as -> ->.
  rewrite SP, nth_error_app2, Nat.sub_diag in NE by lia. injection NE as <-.
  rewrite length_array_firstn, !length_array_leaves.
  replace (firstn (length l1) l) with l1; [apply F1; lra|].
  rewrite SP, firstn_app, Nat.sub_diag, firstn_all, app_nil_r. reflexivity.
Qed.

Definition positive (cs : list curve) : Prop := cs <> [] /\ Forall (fun c => 0 < c_length c) cs.

Lemma positive_nonneg cs : positive cs -> Forall (fun c => 0 <= c_length c) cs.
Proof. intros [_ H]. eapply Forall_impl; [|exact H]. cbn. intros. lra. Qed.
Lemma positive_total cs : positive cs -> 0 < total cs.
Proof.
  intros [N H]. destruct H as [|c r Hc Hr]; [contradiction|].
  assert (0 <= total r) by (apply total_nonneg; eapply Forall_impl; [|exact Hr]; cbn; intros; lra).
  unfold total in *. cbn. lra.
Qed.
Lemma positive_wf n : n_active n = true -> Forall (fun c => 0 < c_length c) (leaves n) -> wf n.
Proof.
  induction n as [c|a l IH] using node_rect'; intros A P.
  - cbn in *. rewrite A in P. inversion P; subst. lra.
  - assert (NE : leaves (Chain a l) <> []) by (apply active_leaves, A).
    destruct a; [|discriminate]. change (leaves (Chain true l)) with (leaves_of l) in *.
    apply wf_chain. split; [apply positive_total; split; assumption|].
    clear A NE. induction IH as [|m l Hm HF IHl]; constructor.
    + intros Am. change (leaves_of (m :: l)) with (leaves m ++ leaves_of l) in P.
      apply Forall_app in P. apply Hm; tauto.
    + apply IHl. change (leaves_of (m :: l)) with (leaves m ++ leaves_of l) in P. apply Forall_app in P. tauto.
Qed.
Lemma positive_wf_chain a l : positive (leaves_of l) -> wf (Chain a l).
Proof.
  intros [N P]. change (wf (Chain true l)). apply positive_wf; [|exact P]. apply active_leaves. exact N.
Qed.

Lemma walk_start c r : 0 < c_length c -> walk (c :: r) 0 = c_eval c 0.
Proof.
  intros H. unfold local. destruct r; cbn [walk]; [|destruct (Rle_dec 0 (c_length c)); [|lra]];
    unfold local; (destruct (Req_EM_T (c_length c) 0); [lra|]); f_equal; unfold Rdiv; ring.
Qed.
Lemma walk_end a z : Forall (fun c => 0 <= c_length c) a -> 0 < c_length z ->
  walk (a ++ [z]) (total (a ++ [z])) = c_eval z 1.
Proof.
  intros NN H. rewrite total_app. unfold total at 2. cbn. rewrite walk_app_r; [|exact NN|discriminate|right; lra].
  cbn. unfold local. destruct (Req_EM_T (c_length z) 0); [lra|]. f_equal. field. assumption.
Qed.
Lemma walk_end' cs d : positive cs -> walk cs (total cs) = c_eval (last cs d) 1.
Proof.
  intros [N P]. destruct (exists_last N) as (a & z & ->). rewrite last_last.
  apply Forall_app in P. destruct P as [P1 P2]. inversion P2; subst.
  apply walk_end; [|assumption]. eapply Forall_impl; [|exact P1]. cbn. intros. lra.
Qed.

(** Start and end. *)
Theorem C37_ends a l d : positive (leaves_of l) ->
  n_eval (Chain a l) 0 = Ok (c_eval (hd d (leaves_of l)) 0) /\
  n_eval (Chain a l) 1 = Ok (c_eval (last (leaves_of l) d) 1).
Proof.
  intros P. rewrite !C37_travel by (apply positive_wf_chain, P). split; f_equal.
  - rewrite Rmult_0_l. destruct P as [N P]. destruct (leaves_of l) as [|c r]; [contradiction|].
    inversion P; subst. apply walk_start. assumption.
  - rewrite Rmult_1_l. apply walk_end', P.
Qed.

(** Nesting does not matter: the chain of the flattened active curves has the same points. *)
Lemma leaves_prims cs : Forall (fun c => c_act c = true) cs -> leaves_of (map Prim cs) = cs.
Proof. induction 1 as [|c r H HF IH]; cbn; [reflexivity|]. rewrite H. cbn. f_equal. exact IH. Qed.
Lemma leaves_act n : Forall (fun c => c_act c = true) (leaves n).
Proof.
  induction n as [c|a l IH] using node_rect'; cbn.
  - destruct (c_act c) eqn:E; repeat constructor. exact E.
  - destruct a; [|constructor]. induction IH; cbn; [constructor|]. apply Forall_app. auto.
Qed.
Theorem C37_nesting a b l s : wf (Chain a l) ->
  n_eval (Chain a l) s = n_eval (Chain b (map Prim (leaves_of l))) s.
Proof.
  intros W. assert (LP : leaves_of (map Prim (leaves_of l)) = leaves_of l).
  { apply leaves_prims. apply (leaves_act (Chain true l)). }
  rewrite !C37_travel, LP; [reflexivity| |exact W].
  apply wf_chain in W. destruct W as [TP WF]. apply wf_chain. rewrite LP. split; [exact TP|].
  pose proof (leaves_of_nonneg l WF) as NN. clear - NN. induction NN; cbn; constructor; auto.
Qed.

(** Continuity: if the active curves are continuous and join, the chain is continuous. *)
Definition vcont (f : R -> vec) (x : R) : Prop :=
  forall eps, 0 < eps -> exists del, 0 < del /\ forall y, Rabs (y - x) < del -> norm (vsub (f y) (f x)) < eps.
Fixpoint joined (cs : list curve) : Prop :=
  match cs with
  | c :: ((d :: _) as r) => c_eval c 1 = c_eval d 0 /\ joined r
  | _ => True
  end.

Lemma vcont_affine f k b x : 0 < k -> vcont f (x / k - b) -> vcont (fun y => f (y / k - b)) x.
Proof.
  intros Hk H eps He. destruct (H eps He) as (d & Hd & D). exists (d * k). split; [nra|].
  intros y Hy. apply D. replace (y / k - b - (x / k - b)) with ((y - x) / k) by (field; lra).
  unfold Rdiv. rewrite Rabs_mult, (Rabs_right (/ k)) by (apply Rle_ge; left; apply Rinv_0_lt_compat; lra).
  apply Rmult_lt_reg_r with k; [exact Hk|]. rewrite Rmult_assoc, Rinv_l, Rmult_1_r by lra. exact Hy.
Qed.

Lemma vcont_paste f g a x : f a = g a -> (forall y, vcont f y) -> (forall y, vcont g y) ->
  vcont (fun y => if Rle_dec y a then f y else g y) x.
Proof.
  intros E F G eps He. destruct (Rtotal_order x a) as [H|[H|H]].
  - destruct (F x eps He) as (d & Hd & D). exists (Rmin d (a - x)). split; [apply Rmin_pos; lra|].
    intros y Hy. assert (Rabs (y - x) < d /\ Rabs (y - x) < a - x) as [H1 H2].
    { split; (eapply Rlt_le_trans; [exact Hy|]); [apply Rmin_l|apply Rmin_r]. }
    apply Rabs_def2 in H2. destruct (Rle_dec y a), (Rle_dec x a); try lra. apply D, H1.
  - subst x. destruct (F a eps He) as (d1 & Hd1 & D1). destruct (G a eps He) as (d2 & Hd2 & D2).
    exists (Rmin d1 d2). split; [apply Rmin_pos; lra|]. intros y Hy.
    assert (Rabs (y - a) < d1 /\ Rabs (y - a) < d2) as [H1 H2].
    { split; (eapply Rlt_le_trans; [exact Hy|]); [apply Rmin_l|apply Rmin_r]. }
    destruct (Rle_dec a a); [|lra]. destruct (Rle_dec y a); [apply D1, H1|]. rewrite E. apply D2, H2.
  - destruct (G x eps He) as (d & Hd & D). exists (Rmin d (x - a)). split; [apply Rmin_pos; lra|].
    intros y Hy. assert (Rabs (y - x) < d /\ Rabs (y - x) < x - a) as [H1 H2].
    { split; (eapply Rlt_le_trans; [exact Hy|]); [apply Rmin_l|apply Rmin_r]. }
    apply Rabs_def2 in H2. destruct (Rle_dec y a), (Rle_dec x a); try lra. apply D, H1.
Qed.

Lemma vcont_ext f g x : (forall y, f y = g y) -> vcont f x -> vcont g x.
Proof.
  intros E H eps He. destruct (H eps He) as (d & Hd & D). exists d. split; [exact Hd|].
  intros y Hy. rewrite <- !E. apply D, Hy.
Qed.

Lemma walk_cont cs : Forall (fun c => 0 < c_length c) cs -> joined cs ->
  Forall (fun c => forall y, vcont (c_eval c) y) cs -> forall x, vcont (walk cs) x.
Proof.
  induction 1 as [|c r Hc HF IH]; intros J C x.
  - intros eps He. exists 1. split; [lra|]. intros. cbn. rewrite vsub_diag, norm_ORIGIN. exact He.
  - inversion C; subst.
    assert (LC : forall y, vcont (fun x => c_eval c (local c x)) y).
    { intros y. apply vcont_ext with (fun x => c_eval c (x / c_length c - 0)).
      - intros z. f_equal. unfold local. destruct (Req_EM_T (c_length c) 0); [lra|]. ring.
      - apply (vcont_affine (c_eval c)); auto. }
    destruct r as [|d r]; [apply LC|].
    apply vcont_ext with (fun x => if Rle_dec x (c_length c) then c_eval c (local c x) else walk (d :: r) (x - c_length c)).
    { intros y. reflexivity. }
    apply (vcont_paste (fun x => c_eval c (local c x)) (fun x => walk (d :: r) (x - c_length c))); auto.
    + rewrite Rminus_eq_0. inversion HF; subst. rewrite walk_start by assumption. destruct J as [J _]. rewrite <- J.
      f_equal. unfold local. destruct (Req_EM_T (c_length c) 0); [lra|]. field. lra.
    + intros y. apply vcont_ext with (fun x => walk (d :: r) (x / 1 - c_length c)).
      * intros z. f_equal. field.
      * apply (vcont_affine (walk (d :: r))); [lra|]. apply IH; [apply J|assumption].
Qed.

Theorem C37_continuous a l s : positive (leaves_of l) -> joined (leaves_of l) ->
  Forall (fun c => forall y, vcont (c_eval c) y) (leaves_of l) ->
  forall eps, 0 < eps -> exists del, 0 < del /\ forall s', Rabs (s' - s) < del ->
    exists p q, n_eval (Chain a l) s = Ok p /\ n_eval (Chain a l) s' = Ok q /\ norm (vsub q p) < eps.
Proof.
  intros P J C eps He. pose proof (positive_total _ P) as TP.
  assert (VC : vcont (fun s => walk (leaves_of l) (s * total (leaves_of l))) s).
  { apply vcont_ext with (fun s => walk (leaves_of l) (s / (/ total (leaves_of l)) - 0)).
    - intros y. f_equal. field. lra.
    - apply (vcont_affine (walk (leaves_of l))); [apply Rinv_0_lt_compat, TP|]. apply walk_cont; auto. apply P. }
  destruct (VC eps He) as (d & Hd & D). exists d. split; [exact Hd|]. intros s' Hs'.
  do 2 eexists. rewrite !C37_travel by (apply positive_wf_chain, P). repeat split. apply D, Hs'.
Qed.

(** Lines and arcs are continuous, so the theorem applies to chains of them. *)
Lemma smul_norm_cont p x : vcont (fun y => smul y p) x.
Proof.
  intros eps He. pose proof (norm_nonneg p). exists (eps / (norm p + 1)). split; [apply Rdiv_lt_0_compat; lra|].
  intros y Hy. replace (vsub (smul y p) (smul x p)) with (smul (y - x) p) by vec_ring. rewrite norm_smul.
  apply Rle_lt_trans with (Rabs (y - x) * (norm p + 1)).
  - apply Rmult_le_compat_l; [apply Rabs_pos|lra].
  - apply Rlt_le_trans with (eps / (norm p + 1) * (norm p + 1)); [apply Rmult_lt_compat_r; lra|].
    right. field. lra.
Qed.
Theorem C37_lines_continuous p0 p1 y : vcont (c_eval (line_curve p0 p1 true)) y.
Proof.
  apply vcont_ext with (fun s => vadd p0 (smul s (vsub p1 p0))).
  - intros s. rewrite line_eval. vec_ring.
  - intros eps He. destruct (smul_norm_cont (vsub p1 p0) y eps He) as (d & Hd & D). exists d. split; [exact Hd|].
    intros z Hz. replace (vsub _ _) with (vsub (smul z (vsub p1 p0)) (smul y (vsub p1 p0))) by vec_ring. apply D, Hz.
Qed.
Theorem C37_arcs_continuous r a ce yaw pitch roll y : 0 <= r ->
  vcont (c_eval (arc_curve r a ce yaw pitch roll true)) y.
Proof.
  intros Hr eps He. set (k := r * Rabs a). assert (0 <= k) by (unfold k; pose proof (Rabs_pos a); nra).
  exists (eps / (k + 1)). split; [apply Rdiv_lt_0_compat; lra|]. intros z Hz.
  eapply Rle_lt_trans; [apply C33_chord_bound, Hr|]. fold k.
  apply Rle_lt_trans with ((k + 1) * Rabs (z - y)); [apply Rmult_le_compat_r; [apply Rabs_pos|lra]|].
  apply Rlt_le_trans with ((k + 1) * (eps / (k + 1))); [apply Rmult_lt_compat_l; lra|]. right. field. lra.
Qed.
Example C37_arcs_continuous_example : vcont (c_eval (arc_curve 2 1 RIGHT 1 2 3 true)) (1/2).
Proof. apply C37_arcs_continuous. lra. Qed.

(** An inactive nested chain is skipped even if it contains active curves, but [get_curves] returns
    those curves. *)
Theorem C37_inactive_subchain_refuted : exists c l,
  leaves_of l = [] /\ get_curves (Chain true l) = [c] /\ c_act c = true /\
  n_eval (Chain true l) 0 = Err IndexError.
Proof.
  exists (line_curve ORIGIN RIGHT true), [Chain false [Prim (line_curve ORIGIN RIGHT true)]].
  repeat split. apply C36_no_active. reflexivity.
Qed.

(** ** C38 *)

(** Refreshing up-to-date curves changes nothing. *)
Lemma update_id n : n_active n = true -> Forall fresh (leaves n) -> n_update n = n.
Proof.
  induction n as [c|a l IH] using node_rect'; intros A F.
  - cbn in *. rewrite A in F. inversion F; subst. rewrite H1. reflexivity.
  - cbn in A. destruct a; [|discriminate]. cbn in F. cbn [n_update]. f_equal. clear A.
    induction IH as [|m l Hm HF IHl]; [reflexivity|]. cbn in F. apply Forall_app in F. cbn. f_equal.
    + destruct (n_active m) eqn:E; [apply Hm; tauto|reflexivity].
    + apply IHl. tauto.
Qed.
Lemma refresh_id n : Forall fresh (leaves n) -> refresh n = n.
Proof. intros F. unfold refresh. destruct (n_active n) eqn:E; [apply update_id; assumption|reflexivity]. Qed.
Lemma refresh_list l : Forall fresh (leaves_of l) -> map refresh l = l.
Proof.
  induction l as [|m l IH]; [reflexivity|]. change (leaves_of (m :: l)) with (leaves m ++ leaves_of l).
  intros F. apply Forall_app in F. cbn. f_equal; [apply refresh_id|apply IH]; tauto.
Qed.
Lemma leaves_deactivate n : leaves (n_deactivate n) = [].
Proof. destruct n; reflexivity. Qed.
Lemma leaves_deactivate_list l : leaves_of (map n_deactivate l) = [].
Proof. induction l as [|m l IH]; cbn; [reflexivity|]. rewrite leaves_deactivate. exact IH. Qed.

Lemma length_pos_split n : n_active n = true -> wf n -> n_length n = 0 -> exists c, n = Prim c.
Proof. destruct n as [c|a l]; [eauto|]. intros A [W _] Z. lra. Qed.

(** Trimming the start: it cuts one curve at the old point and drops what lies before. *)
Lemma set_start_spec n : n_active n = true -> wf n -> Forall fresh (leaves n) -> forall pres s,
  exists pre c post u n', leaves n = pre ++ c :: post /\ n_set_start pres n s = Ok n' /\
    leaves n' = set_start_on c u :: post /\ n_eval n s = Ok (c_eval c u) /\
    (c_length c <> 0 -> n_length n <> 0 -> total pre + u * c_length c = s * n_length n) /\
    (pre <> [] -> total pre < s * n_length n) /\
    (post <> [] -> s * n_length n <= total pre + c_length c).
Proof.
  induction n as [c|a l IH] using node_rect'; intros A W F pres s.
  - cbn in A. exists [], c, [], s, (Prim (set_start_on c s)). cbn. rewrite A.
    unfold set_start_on. rewrite update_act. cbn [c_act with_domain]. rewrite A. unfold total. cbn.
    repeat split; try congruence. intros. ring.
  - pose proof W as W0. apply wf_chain in W0. destruct W0 as [TP WF].
    assert (TL : n_length (Chain a l) = total (leaves_of l)) by apply length_array_leaves.
    cbn in A. destruct a; [|discriminate].
    destruct (get_index_spec true l s W) as (l1 & n & l2 & u & SP & E & An & F1 & F2 & F3 & F4).
    assert (Hin : In n l) by (rewrite SP; apply in_app_iff; right; left; reflexivity).
    rewrite Forall_forall in IH, WF. pose proof (WF n Hin An) as Wn.
    change (leaves (Chain true l)) with (leaves_of l) in *.
    assert (LS : leaves_of l = leaves_of l1 ++ leaves n ++ leaves_of l2)
      by (rewrite SP at 1; rewrite leaves_app; reflexivity).
    rewrite LS in F. apply Forall_app in F. destruct F as [Fl1 F]. apply Forall_app in F. destruct F as [Fn Fl2].
    destruct (IH n Hin An Wn Fn false u) as (pre & c & post & v & n' & L1 & S1 & L2 & E1 & G1 & G2 & G3).
    assert (ENTH : forall B (f : node -> R -> res B),
      nth (length l1) (map f l) (fun _ => Err IndexError) = f n).
    { intros B f. rewrite (nth_map' _ _ _ (Chain false [])) by (rewrite SP, app_length; cbn; lia).
      rewrite SP, nth_middle. reflexivity. }
    assert (SK : skipn (S (length l1)) l = l2).
    { rewrite SP. replace (S (length l1)) with (length (l1 ++ [n])) by (rewrite app_length; cbn; lia).
      replace (l1 ++ n :: l2) with ((l1 ++ [n]) ++ l2) by (rewrite <- app_assoc; reflexivity).
      rewrite skipn_app, skipn_all, Nat.sub_diag. reflexivity. }
    set (l' := (if pres then map n_deactivate (firstn (length l1) l) else []) ++ n' :: l2).
    assert (Ll' : leaves_of l' = set_start_on c v :: post ++ leaves_of l2).
    { unfold l'. rewrite leaves_app. change (leaves_of (n' :: l2)) with (leaves n' ++ leaves_of l2).
      rewrite L2. destruct pres; [rewrite leaves_deactivate_list|]; reflexivity. }
    assert (Fr : Forall fresh (leaves_of l')).
    { rewrite Ll'. constructor; [apply set_start_fresh|]. apply Forall_app. split; [|exact Fl2].
      rewrite L1 in Fn. apply Forall_app in Fn. destruct Fn as [_ Fn]. inversion Fn; assumption. }
    exists (leaves_of l1 ++ pre), c, (post ++ leaves_of l2), v, (Chain true l').
    split; [rewrite LS, L1, <- !app_assoc; reflexivity|]. split.
    { change (n_set_start pres (Chain true l) s) with (bind (get_s_index l s) (fun iu =>
        bind (nth (fst iu) (map (n_set_start false) l) (fun _ => Err IndexError) (snd iu)) (fun m =>
          Ok (Chain true (map refresh ((if pres then map n_deactivate (firstn (fst iu) l) else [])
                                     ++ m :: skipn (S (fst iu)) l)))))).
      rewrite E. cbn [bind fst snd]. rewrite ENTH, S1. cbn [bind]. rewrite SK. fold l'.
      rewrite refresh_list by exact Fr. reflexivity. }
    split; [exact Ll'|]. split.
    { change (n_eval (Chain true l) s) with
        (bind (get_s_index l s) (fun iu => nth (fst iu) (map n_eval l) (fun _ => Err IndexError) (snd iu))).
      rewrite E. cbn [bind fst snd]. rewrite ENTH. exact E1. }
    rewrite TL, total_app.
    assert (Tn : n_length n = total pre + c_length c + total post).
    { rewrite (length_leaves n An), L1, total_app. unfold total at 2. cbn. fold (total post). ring. }
    assert (NNn : Forall (fun c => 0 <= c_length c) (leaves n)) by (apply leaves_nonneg; assumption).
    rewrite L1 in NNn. apply Forall_app in NNn. destruct NNn as [NNp NNc]. inversion NNc; subst x l0.
    pose proof (total_nonneg pre NNp) as TN1. pose proof (total_nonneg post H2) as TN2.
    destruct (Req_EM_T (n_length n) 0) as [Z|Z].
    + (* a single curve of length zero *)
      destruct (length_pos_split n An Wn Z) as (c0 & ->). cbn in An, L1. rewrite An in L1.
      destruct pre as [|p0 pre]; [|destruct pre; discriminate]. cbn in L1. injection L1 as <- <-.
      cbn in Z. rewrite app_nil_r. change (total []) with 0. split; [intros; contradiction|]. split.
      * intros Hne. rewrite Rplus_0_r. apply F3, Hne.
      * intros Hne. rewrite Rplus_0_r. apply F4, Hne.
    + specialize (F1 Z). split; [|split].
      * intros Hc _. specialize (G1 Hc Z). lra.
      * intros Hne. destruct pre as [|p0 pre].
        { change (total []) with 0. rewrite Rplus_0_r. apply F3. rewrite app_nil_r in Hne. exact Hne. }
        specialize (G2 ltac:(discriminate)). lra.
      * intros Hne. destruct post as [|p0 post].
        { cbn in Hne. specialize (F4 Hne). change (total []) with 0 in Tn. lra. }
        specialize (G3 ltac:(discriminate)). lra.
Qed.

(** Trimming the end. *)
Lemma set_end_spec n : n_active n = true -> wf n -> Forall fresh (leaves n) -> forall pres s,
  exists pre c post u n', leaves n = pre ++ c :: post /\ n_set_end pres n s = Ok n' /\
    leaves n' = pre ++ [set_end_on c u] /\ n_eval n s = Ok (c_eval c u) /\
    (c_length c <> 0 -> n_length n <> 0 -> total pre + u * c_length c = s * n_length n) /\
    (pre <> [] -> total pre < s * n_length n) /\
    (post <> [] -> s * n_length n <= total pre + c_length c).
Proof.
  induction n as [c|a l IH] using node_rect'; intros A W F pres s.
  - cbn in A. exists [], c, [], s, (Prim (set_end_on c s)). cbn. rewrite A.
    unfold set_end_on. rewrite update_act. cbn [c_act with_domain]. rewrite A. unfold total. cbn.
    repeat split; try congruence. intros. ring.
  - pose proof W as W0. apply wf_chain in W0. destruct W0 as [TP WF].
    assert (TL : n_length (Chain a l) = total (leaves_of l)) by apply length_array_leaves.
    cbn in A. destruct a; [|discriminate].
    destruct (get_index_spec true l s W) as (l1 & n & l2 & u & SP & E & An & F1 & F2 & F3 & F4).
    assert (Hin : In n l) by (rewrite SP; apply in_app_iff; right; left; reflexivity).
    rewrite Forall_forall in IH, WF. pose proof (WF n Hin An) as Wn.
    change (leaves (Chain true l)) with (leaves_of l) in *.
    assert (LS : leaves_of l = leaves_of l1 ++ leaves n ++ leaves_of l2)
      by (rewrite SP at 1; rewrite leaves_app; reflexivity).
    rewrite LS in F. apply Forall_app in F. destruct F as [Fl1 F]. apply Forall_app in F. destruct F as [Fn Fl2].
    destruct (IH n Hin An Wn Fn false u) as (pre & c & post & v & n' & L1 & S1 & L2 & E1 & G1 & G2 & G3).
    assert (ENTH : forall B (f : node -> R -> res B),
      nth (length l1) (map f l) (fun _ => Err IndexError) = f n).
    { intros B f. rewrite (nth_map' _ _ _ (Chain false [])) by (rewrite SP, app_length; cbn; lia).
      rewrite SP, nth_middle. reflexivity. }
    assert (FK : firstn (length l1) l = l1)
      by (rewrite SP, firstn_app, Nat.sub_diag, firstn_all, app_nil_r; reflexivity).
    set (l' := l1 ++ n' :: (if pres then map n_deactivate (skipn (S (length l1)) l) else [])).
    assert (Ll' : leaves_of l' = (leaves_of l1 ++ pre) ++ [set_end_on c v]).
    { unfold l'. rewrite leaves_app.
      change (leaves_of (n' :: ?r)) with (leaves n' ++ leaves_of r). cbn [leaves_of flat_map].
      fold (leaves_of (if pres then map n_deactivate (skipn (S (length l1)) l) else [])).
      rewrite L2. replace (leaves_of (if pres then _ else _)) with (@nil curve)
        by (destruct pres; [rewrite leaves_deactivate_list|]; reflexivity).
      rewrite app_nil_r, app_assoc. reflexivity. }
    assert (Fr : Forall fresh (leaves_of l')).
    { rewrite Ll'. apply Forall_app. split; [apply Forall_app; split; [exact Fl1|]|].
      - rewrite L1 in Fn. apply Forall_app in Fn. tauto.
      - constructor; [apply set_end_fresh|constructor]. }
    exists (leaves_of l1 ++ pre), c, (post ++ leaves_of l2), v, (Chain true l').
    split; [rewrite LS, L1, <- !app_assoc; reflexivity|]. split.
    { change (n_set_end pres (Chain true l) s) with (bind (get_s_index l s) (fun iu =>
        bind (nth (fst iu) (map (n_set_end false) l) (fun _ => Err IndexError) (snd iu)) (fun m =>
          Ok (Chain true (map refresh (firstn (fst iu) l ++ m ::
             (if pres then map n_deactivate (skipn (S (fst iu)) l) else []))))))).
      rewrite E. cbn [bind fst snd]. rewrite ENTH, S1. cbn [bind]. rewrite FK. fold l'.
      rewrite refresh_list by exact Fr. reflexivity. }
    split; [exact Ll'|]. split.
    { change (n_eval (Chain true l) s) with
        (bind (get_s_index l s) (fun iu => nth (fst iu) (map n_eval l) (fun _ => Err IndexError) (snd iu))).
      rewrite E. cbn [bind fst snd]. rewrite ENTH. exact E1. }
    rewrite TL, total_app.
    assert (Tn : n_length n = total pre + c_length c + total post).
    { rewrite (length_leaves n An), L1, total_app. unfold total at 2. cbn. fold (total post). ring. }
    assert (NNn : Forall (fun c => 0 <= c_length c) (leaves n)) by (apply leaves_nonneg; assumption).
    rewrite L1 in NNn. apply Forall_app in NNn. destruct NNn as [NNp NNc]. inversion NNc; subst x l0.
    pose proof (total_nonneg pre NNp) as TN1. pose proof (total_nonneg post H2) as TN2.
    destruct (Req_EM_T (n_length n) 0) as [Z|Z].
    + destruct (length_pos_split n An Wn Z) as (c0 & ->). cbn in An, L1. rewrite An in L1.
      destruct pre as [|p0 pre]; [|destruct pre; discriminate]. cbn in L1. injection L1 as <- <-.
      cbn in Z. rewrite app_nil_r. change (total []) with 0. split; [intros; contradiction|]. split.
      * intros Hne. rewrite Rplus_0_r. apply F3, Hne.
      * intros Hne. rewrite Rplus_0_r. apply F4, Hne.
    + specialize (F1 Z). split; [|split].
      * intros Hc _. specialize (G1 Hc Z). lra.
      * intros Hne. destruct pre as [|p0 pre].
        { change (total []) with 0. rewrite Rplus_0_r. apply F3. rewrite app_nil_r in Hne. exact Hne. }
        specialize (G2 ltac:(discriminate)). lra.
      * intros Hne. destruct post as [|p0 post].
        { cbn in Hne. specialize (F4 Hne). change (total []) with 0 in Tn. lra. }
        specialize (G3 ltac:(discriminate)). lra.
Qed.

(** A curve none of whose proper pieces has length zero. *)
Definition regular (c : curve) : Prop := forall t0 t1,
  0 <= c_length (update_lengths (with_domain c t0 t1)) /\
  (t0 <> t1 -> 0 < c_length (update_lengths (with_domain c t0 t1))).
Lemma line_regular c p q : c_shape c = SLine p q -> p <> q -> regular c.
Proof.
  intros E H t0 t1. destruct (fresh_line (update_lengths (with_domain c t0 t1)) p q) as (_ & _ & ->);
    [apply update_fresh|rewrite update_shape; exact E|]. rewrite update_t0, update_t1. cbn.
  assert (0 < norm (vsub q p)).
  { apply norm_pos. intros Z. apply H. unfold vsub, ORIGIN in Z. injection Z as Z1 Z2 Z3.
    destruct p, q; cbn in *; f_equal; lra. }
  split; [pose proof (Rabs_pos (t1 - t0)); nra|]. intros N. apply Rmult_lt_0_compat; [assumption|].
  apply Rabs_pos_lt. lra.
Qed.
Lemma arc_regular c r a ce m : c_shape c = SArc r a ce m -> 0 < r * a -> regular c.
Proof.
  intros E H t0 t1. destruct (fresh_arc (update_lengths (with_domain c t0 t1)) r a ce m) as (_ & _ & ->);
    [apply update_fresh|rewrite update_shape; exact E|]. lra.
Qed.

Lemma scan_const x xp fp t : (forall y, In y fp -> y = t) -> fp <> [] -> interp_scan x xp fp = t.
Proof.
  revert fp. induction xp as [|x0 xp IH]; intros fp H N.
  - destruct fp as [|y fp]; [contradiction|]. cbn. apply H. left. reflexivity.
  - destruct fp as [|y fp]; [contradiction|]. cbn. destruct xp as [|x1 xp]; [apply H; left; reflexivity|].
    destruct fp as [|y1 fp]; [apply H; left; reflexivity|].
    rewrite (H y), (H y1) by (cbn; auto). destruct (Rlt_dec x x1).
    + destruct (Req_EM_T x x0); [reflexivity|]. unfold Rdiv. ring.
    + apply IH; [|discriminate]. intros z [<-|Hz]; [reflexivity|apply H; right; right; exact Hz].
Qed.
(** A refreshed curve with an empty parameter range is a point. *)
Lemma s2t_point c t s : fresh c -> (2 <= c_ndiv c)%nat -> c_t0 c = t -> c_t1 c = t -> 0 <= s <= 1 -> s2t c s = t.
Proof.
  intros F H E0 E1 Hs.
  assert (TS : forall x, In x (c_ts c) -> x = t).
  { unfold fresh, update_lengths in F. destruct (c_shape c) eqn:E; rewrite <- F; cbn [c_ts];
      rewrite E0, E1; try (cbn; intros x [<-|[<-|[]]]; reflexivity);
      intros x Hx; apply In_nth with (d := 0) in Hx; destruct Hx as (i & Hi & <-);
      rewrite linspace_length in Hi; rewrite linspace_nth by lia; unfold Rdiv; ring. }
  pose proof (fresh_tab c F H) as T.
  rewrite s2t_in by exact Hs. rewrite np_interp_in by (rewrite (tab_s0 _ _ _ _ _ T), (tab_s1 _ _ _ _ _ T); exact Hs).
  apply scan_const; [exact TS|]. pose proof (tab_two _ _ _ _ _ T). pose proof (tab_len _ _ _ _ _ T).
  intros Z. rewrite Z in *. cbn in *. lia.
Qed.
Lemma eval_point c t s : fresh c -> (2 <= c_ndiv c)%nat -> c_t0 c = t -> c_t1 c = t -> 0 <= s <= 1 ->
  c_eval c s = c_fun c t.
Proof. intros. unfold c_eval. f_equal. apply s2t_point; assumption. Qed.

Lemma local_start c : fresh c -> (2 <= c_ndiv c)%nat -> (c_length c = 0 -> c_t0 c = c_t1 c) ->
  c_eval c (local c 0) = c_fun c (c_t0 c).
Proof.
  intros F N H. unfold local. destruct (Req_EM_T (c_length c) 0) as [Z|Z].
  - apply eval_point; auto; [symmetry; auto|lra].
  - replace (0 / c_length c) with 0 by (field; exact Z). apply fresh_start; assumption.
Qed.
Lemma local_end c : fresh c -> (2 <= c_ndiv c)%nat -> (c_length c = 0 -> c_t0 c = c_t1 c) ->
  c_eval c (local c (c_length c)) = c_fun c (c_t1 c).
Proof.
  intros F N H. unfold local. destruct (Req_EM_T (c_length c) 0) as [Z|Z].
  - apply eval_point; auto. lra.
  - replace (c_length c / c_length c) with 1 by (field; exact Z). apply fresh_end; assumption.
Qed.

Lemma walk_first c r : 0 <= c_length c -> walk (c :: r) 0 = c_eval c (local c 0).
Proof. intros H. destruct r; cbn [walk]; [reflexivity|]. destruct (Rle_dec 0 (c_length c)); [reflexivity|lra]. Qed.

(** A chain that can be trimmed: active curves up to date, sampled, of positive length, and without
    pieces of length zero. *)
Definition trimmable (n : node) : Prop := leaves n <> [] /\
  Forall (fun c => fresh c /\ (2 <= c_ndiv c)%nat /\ 0 < c_length c /\ regular c /\
    incr (c_ss c) /\ c_t0 c <> c_t1 c) (leaves n).

Lemma trimmable_wf n : trimmable n -> n_active n = true /\ wf n /\ Forall fresh (leaves n) /\ positive (leaves n).
Proof.
  intros [N F]. assert (A : n_active n = true) by (apply active_leaves; exact N).
  assert (P : Forall (fun c => 0 < c_length c) (leaves n)) by (eapply Forall_impl; [|exact F]; cbn; tauto).
  split; [exact A|]. split; [apply positive_wf; assumption|]. split; [eapply Forall_impl; [|exact F]; cbn; tauto|].
  split; assumption.
Qed.

Lemma eval_leaves a l c r s : leaves_of l = c :: r -> wf (Chain a l) ->
  n_eval (Chain a l) s = Ok (walk (c :: r) (s * total (c :: r))).
Proof. intros E W. rewrite <- E. apply C37_travel, W. Qed.

Lemma set_start_len0 c u : regular c -> c_length (set_start_on c u) = 0 -> s2t c u = c_t1 c.
Proof.
  intros Rg Z. destruct (Rg (s2t c u) (c_t1 c)) as [_ G]. destruct (Req_EM_T (s2t c u) (c_t1 c)) as [E|E]; [exact E|].
  specialize (G E). unfold set_start_on in Z. lra.
Qed.
Lemma set_end_len0 c u : regular c -> c_length (set_end_on c u) = 0 -> c_t0 c = s2t c u.
Proof.
  intros Rg Z. destruct (Rg (c_t0 c) (s2t c u)) as [_ G]. destruct (Req_EM_T (c_t0 c) (s2t c u)) as [E|E]; [exact E|].
  specialize (G E). unfold set_end_on in Z. lra.
Qed.

(** Trimming the start of a chain: it succeeds for every real [s]; the new chain starts where the old
    one was at [s] and still ends at the old end.  [wf n'] excludes trims that leave (sub)chains of
    length zero; see [C38_trim_to_nothing_refuted]. *)
Theorem C38_set_start a l pres s : trimmable (Chain a l) ->
  exists n', n_set_start pres (Chain a l) s = Ok n' /\
    (wf n' -> n_eval n' 0 = n_eval (Chain a l) s /\ n_eval n' 1 = n_eval (Chain a l) 1).
Proof.
  intros Tr. destruct (trimmable_wf _ Tr) as (A & W & Fr & P).
  destruct (set_start_spec _ A W Fr pres s) as (pre & c & post & u & n' & L & S1 & L' & E & _).
  assert (exists l', n' = Chain a l') as (l' & ->).
  { revert S1. change (n_set_start pres (Chain a l) s) with (bind (get_s_index l s) (fun iu =>
        bind (nth (fst iu) (map (n_set_start false) l) (fun _ => Err IndexError) (snd iu)) (fun m =>
          Ok (Chain a (map refresh ((if pres then map n_deactivate (firstn (fst iu) l) else [])
                                     ++ m :: skipn (S (fst iu)) l)))))).
    destruct (get_s_index l s); cbn [bind]; [|discriminate].
    destruct (nth _ _ _ _); cbn [bind]; [|discriminate]. injection 1 as <-. eauto. }
  eexists. split; [exact S1|]. intros W'.
  destruct a; [|discriminate A].
  change (leaves (Chain true ?x)) with (leaves_of x) in *.
  destruct Tr as [_ Tr]. change (leaves (Chain true l)) with (leaves_of l) in Tr.
  rewrite L in Tr. apply Forall_app in Tr. destruct Tr as [Tpre Tr]. inversion Tr as [|? ? (Fc & Nc & Pc & Rc & Ic & Dc) Tpost]; subst.
  set (c' := set_start_on c u) in *.
  assert (F' : fresh c') by apply set_start_fresh.
  assert (N' : (2 <= c_ndiv c')%nat) by (unfold c', set_start_on; rewrite update_ndiv; exact Nc).
  assert (Z' : c_length c' = 0 -> c_t0 c' = c_t1 c').
  { intros Z. unfold c', set_start_on. rewrite update_t0, update_t1. cbn. apply set_start_len0; assumption. }
  assert (NN' : 0 <= c_length c') by apply (Rc (s2t c u) (c_t1 c)).
  split.
  - rewrite E. rewrite (eval_leaves true l' c' post 0 L' W'). f_equal. rewrite Rmult_0_l, walk_first by exact NN'.
    rewrite local_start by assumption. unfold c', set_start_on. rewrite update_fun, update_t0. reflexivity.
  - rewrite (eval_leaves true l' c' post 1 L' W'), Rmult_1_l.
    rewrite C37_travel by exact W. rewrite Rmult_1_l. f_equal.
    rewrite (walk_end' (leaves_of l) c P), L.
    destruct post as [|d post].
    + rewrite last_last. unfold total. cbn [map lsum walk]. rewrite Rplus_0_r, local_end by assumption.
      unfold c', set_start_on. rewrite update_fun, update_t1, fresh_end by assumption. reflexivity.
    + destruct (exists_last (l := d :: post)) as (b & z & Q); [discriminate|].
      rewrite Q in *. apply Forall_app in Tpost. destruct Tpost as [Tb Tz]. inversion Tz as [|? ? (Fz & Nz & Pz & _) _]; subst.
      replace (pre ++ c :: b ++ [z]) with ((pre ++ c :: b) ++ [z]) by (rewrite <- app_assoc; reflexivity).
      rewrite last_last. change (c' :: b ++ [z]) with ((c' :: b) ++ [z]).
      apply walk_end; [|exact Pz]. constructor; [exact NN'|]. eapply Forall_impl; [|exact Tb]. cbn. intros ? (_ & _ & ? & _). lra.
Qed.

Theorem C38_set_end a l pres s : trimmable (Chain a l) -> s <= 1 ->
  exists n', n_set_end pres (Chain a l) s = Ok n' /\
    (wf n' -> n_eval n' 1 = n_eval (Chain a l) s /\ n_eval n' 0 = n_eval (Chain a l) 0).
Proof.
  intros Tr S1'. destruct (trimmable_wf _ Tr) as (A & W & Fr & P).
  destruct (set_end_spec _ A W Fr pres s) as (pre & c & post & u & n' & L & S1 & L' & E & G1 & G2 & G3).
  assert (exists l', n' = Chain a l') as (l' & ->).
  { revert S1. change (n_set_end pres (Chain a l) s) with (bind (get_s_index l s) (fun iu =>
        bind (nth (fst iu) (map (n_set_end false) l) (fun _ => Err IndexError) (snd iu)) (fun m =>
          Ok (Chain a (map refresh (firstn (fst iu) l ++ m ::
             (if pres then map n_deactivate (skipn (S (fst iu)) l) else []))))))).
    destruct (get_s_index l s); cbn [bind]; [|discriminate].
    destruct (nth _ _ _ _); cbn [bind]; [|discriminate]. injection 1 as <-. eauto. }
  eexists. split; [exact S1|]. intros W'.
  destruct a; [|discriminate A].
  change (leaves (Chain true ?x)) with (leaves_of x) in *.
  destruct Tr as [_ Tr]. change (leaves (Chain true l)) with (leaves_of l) in Tr.
  rewrite L in Tr. apply Forall_app in Tr. destruct Tr as [Tpre Tr]. inversion Tr as [|? ? (Fc & Nc & Pc & Rc & Ic & Dc) Tpost]; subst.
  set (c' := set_end_on c u) in *.
  assert (F' : fresh c') by apply set_end_fresh.
  assert (N' : (2 <= c_ndiv c')%nat) by (unfold c', set_end_on; rewrite update_ndiv; exact Nc).
  assert (Z' : c_length c' = 0 -> c_t0 c' = c_t1 c').
  { intros Z. unfold c', set_end_on. rewrite update_t0, update_t1. cbn. apply set_end_len0; assumption. }
  assert (NN' : 0 <= c_length c') by apply (Rc (c_t0 c) (s2t c u)).
  assert (NNpre : Forall (fun c => 0 <= c_length c) pre)
    by (eapply Forall_impl; [|exact Tpre]; cbn; intros ? (_ & _ & ? & _); lra).
  pose proof W' as W2. apply wf_chain in W2. destruct W2 as [TP' _]. rewrite L' in TP'.
  split.
  - rewrite E, C37_travel, L', Rmult_1_l by exact W'. f_equal.
    destruct (Req_EM_T (c_length c') 0) as [Z|Z].
    + (* the cut is at the start of [c], so everything lies before it *)
      exfalso. destruct pre as [|d pre].
      { unfold total in TP'. cbn in TP'. lra. }
      set (pre' := d :: pre) in *. pose proof W as W2. apply wf_chain in W2. destruct W2 as [TP _].
      assert (TL : n_length (Chain true l) = total (leaves_of l)) by apply length_array_leaves.
      rewrite TL in *. specialize (G1 ltac:(lra) ltac:(lra)). specialize (G2 ltac:(discriminate)).
      assert (U0 : 0 < u) by nra.
      assert (TT : total (leaves_of l) = total pre' + c_length c + total post).
      { rewrite L, total_app. unfold total. cbn. ring. }
      assert (U1 : u <= 1).
      { destruct post as [|e post]; [change (total []) with 0 in TT; nra|]. specialize (G3 ltac:(discriminate)). nra. }
      pose proof (set_end_len0 c u Rc Z) as Q. destruct (C28_ends c Fc Nc Ic) as [Q0 _].
      destruct (Rdichotomy _ _ Dc) as [D|D].
      * pose proof (C28_strictly_monotone c Fc Nc Ic D 0 u ltac:(lra) U0 U1). lra.
      * pose proof (C28_strictly_monotone_reversed c Fc Nc Ic D 0 u ltac:(lra) U0 U1). lra.
    + rewrite walk_end by (try assumption; lra). rewrite fresh_end by assumption.
      unfold c', set_end_on. rewrite update_fun, update_t1. reflexivity.
  - rewrite !C37_travel by assumption. rewrite L', L. f_equal. rewrite !Rmult_0_l.
    destruct pre as [|d pre].
    + cbn [app]. rewrite walk_first by exact NN'. rewrite walk_start by exact Pc.
      rewrite local_start by assumption. unfold c', set_end_on. rewrite update_fun, update_t0, fresh_start by assumption. reflexivity.
    + cbn [app]. inversion Tpre as [|? ? (Fd & Nd & Pd & Rd) _]; subst. rewrite !walk_start by exact Pd. reflexivity.
Qed.

(** For chains of single curves the trimmed chain is well formed when the trim keeps something. *)
Definition flat (l : list node) : Prop := Forall (fun m => exists c, m = Prim c) l.
Lemma flat_wf a l : flat l -> Forall (fun c => 0 <= c_length c) (leaves_of l) -> 0 < total (leaves_of l) -> wf (Chain a l).
Proof.
  intros F NN TP. apply wf_chain. split; [exact TP|]. clear TP. induction F as [|m l (c & ->) F IH]; constructor.
  - cbn. intros A. cbn in NN. rewrite A in NN. inversion NN; assumption.
  - apply IH. change (leaves_of (Prim c :: l)) with (leaves (Prim c) ++ leaves_of l) in NN. apply Forall_app in NN. tauto.
Qed.
Lemma flat_firstn k l : flat l -> flat (firstn k l).
Proof.
  unfold flat. rewrite !Forall_forall. intros H x Hx. apply H. rewrite <- (firstn_skipn k l). apply in_app_iff. auto.
Qed.
Lemma flat_skipn k l : flat l -> flat (skipn k l).
Proof.
  unfold flat. rewrite !Forall_forall. intros H x Hx. apply H. rewrite <- (firstn_skipn k l). apply in_app_iff. auto.
Qed.
Lemma flat_map_prim f l : (forall c, exists d, f (Prim c) = Prim d) -> flat l -> flat (map f l).
Proof. intros H F. induction F as [|m l (c & ->) F IH]; cbn; constructor; auto. Qed.
Lemma refresh_prim c : exists d, refresh (Prim c) = Prim d.
Proof. unfold refresh. cbn. destruct (c_act c); eauto. Qed.
Lemma nth_map_flat (f : node -> R -> res node) l i s m : flat l -> (forall c, exists d, f (Prim c) s = Ok (Prim d)) ->
  nth i (map f l) (fun _ => Err IndexError) s = Ok m -> exists d, m = Prim d.
Proof.
  intros F H. revert i. induction F as [|n l (c & ->) F IH]; intros [|i]; cbn; try discriminate.
  - destruct (H c) as (d & ->). injection 1 as <-. eauto.
  - apply IH.
Qed.
Lemma flat_set_start pres a l s n' : flat l -> n_set_start pres (Chain a l) s = Ok n' ->
  exists l', n' = Chain a l' /\ flat l'.
Proof.
  intros F. change (n_set_start pres (Chain a l) s) with (bind (get_s_index l s) (fun iu =>
        bind (nth (fst iu) (map (n_set_start false) l) (fun _ => Err IndexError) (snd iu)) (fun m =>
          Ok (Chain a (map refresh ((if pres then map n_deactivate (firstn (fst iu) l) else [])
                                     ++ m :: skipn (S (fst iu)) l)))))).
  destruct (get_s_index l s) as [iu|]; cbn [bind]; [|discriminate].
  destruct (nth _ _ _ _) eqn:E; cbn [bind]; [|discriminate]. injection 1 as <-.
  eexists. split; [reflexivity|]. apply flat_map_prim; [apply refresh_prim|].
  apply Forall_app. split.
  - destruct pres; [|constructor]. apply flat_map_prim; [cbn; eauto|]. apply (flat_firstn (fst iu) l F).
  - constructor; [|apply (flat_skipn (S (fst iu)) l F)]. eapply nth_map_flat; [exact F| |exact E]. cbn. eauto.
Qed.
Lemma flat_set_end pres a l s n' : flat l -> n_set_end pres (Chain a l) s = Ok n' ->
  exists l', n' = Chain a l' /\ flat l'.
Proof.
  intros F. change (n_set_end pres (Chain a l) s) with (bind (get_s_index l s) (fun iu =>
        bind (nth (fst iu) (map (n_set_end false) l) (fun _ => Err IndexError) (snd iu)) (fun m =>
          Ok (Chain a (map refresh (firstn (fst iu) l ++ m ::
             (if pres then map n_deactivate (skipn (S (fst iu)) l) else []))))))).
  destruct (get_s_index l s) as [iu|]; cbn [bind]; [|discriminate].
  destruct (nth _ _ _ _) eqn:E; cbn [bind]; [|discriminate]. injection 1 as <-.
  eexists. split; [reflexivity|]. apply flat_map_prim; [apply refresh_prim|].
  apply Forall_app. split; [apply (flat_firstn (fst iu) l F)|].
  constructor; [eapply nth_map_flat; [exact F| |exact E]; cbn; eauto|].
  destruct pres; [|constructor]. apply flat_map_prim; [cbn; eauto|]. apply (flat_skipn (S (fst iu)) l F).
Qed.

Lemma s2t_inside c u : fresh c -> (2 <= c_ndiv c)%nat -> incr (c_ss c) -> c_t0 c <> c_t1 c -> 0 <= u < 1 -> s2t c u <> c_t1 c.
Proof.
  intros F N I D H. destruct (C28_ends c F N I) as [_ Q]. rewrite <- Q.
  destruct (Rdichotomy _ _ D) as [D'|D'].
  - pose proof (C28_strictly_monotone c F N I D' u 1 ltac:(lra) ltac:(lra) ltac:(lra)). lra.
  - pose proof (C28_strictly_monotone_reversed c F N I D' u 1 ltac:(lra) ltac:(lra) ltac:(lra)). lra.
Qed.
Lemma s2t_inside0 c u : fresh c -> (2 <= c_ndiv c)%nat -> incr (c_ss c) -> c_t0 c <> c_t1 c -> 0 < u <= 1 -> s2t c u <> c_t0 c.
Proof.
  intros F N I D H. destruct (C28_ends c F N I) as [Q _]. rewrite <- Q.
  destruct (Rdichotomy _ _ D) as [D'|D'].
  - pose proof (C28_strictly_monotone c F N I D' 0 u ltac:(lra) ltac:(lra) ltac:(lra)). lra.
  - pose proof (C28_strictly_monotone_reversed c F N I D' 0 u ltac:(lra) ltac:(lra) ltac:(lra)). lra.
Qed.

Lemma start_wf a l pres s n' : flat l -> trimmable (Chain a l) -> 0 <= s < 1 ->
  n_set_start pres (Chain a l) s = Ok n' -> wf n'.
Proof.
  intros Fl Tr Hs EQ. destruct (trimmable_wf _ Tr) as (A & W & Fr & P).
  destruct (set_start_spec _ A W Fr pres s) as (pre & c & post & u & n2 & L & S1 & L' & E & G1 & G2 & G3).
  rewrite EQ in S1. injection S1 as <-. destruct (flat_set_start _ _ _ _ _ Fl EQ) as (l' & -> & Fl').
  destruct a; [|discriminate A]. change (leaves (Chain true ?x)) with (leaves_of x) in *.
  assert (TL : n_length (Chain true l) = total (leaves_of l)) by apply length_array_leaves. rewrite TL in *.
  destruct Tr as [_ Tr]. change (leaves (Chain true l)) with (leaves_of l) in Tr.
  pose proof W as W2. apply wf_chain in W2. destruct W2 as [TP _].
  assert (TT : total (leaves_of l) = total pre + c_length c + total post) by (rewrite L, total_app; unfold total; cbn; ring).
  rewrite L in Tr. apply Forall_app in Tr. destruct Tr as [Tpre Tr].
  inversion Tr as [|? ? (Fc & Nc & Pc & Rc & Ic & Dc) Tpost]; subst.
  assert (NP : Forall (fun c => 0 <= c_length c) post)
    by (eapply Forall_impl; [|exact Tpost]; cbn; intros ? (_ & _ & ? & _); lra).
  pose proof (proj1 (Rc (s2t c u) (c_t1 c))) as NN'. fold (set_start_on c u) in NN'.
  apply flat_wf; [exact Fl'|rewrite L'; constructor; assumption|].
  rewrite L'. change (total (set_start_on c u :: post)) with (c_length (set_start_on c u) + total post).
  destruct post as [|d post].
  - change (total []) with 0 in *. specialize (G1 ltac:(lra) ltac:(lra)).
    assert (U : 0 <= u < 1).
    { split; [|nra]. destruct pre as [|e pre]; [change (total []) with 0 in *; nra|]. specialize (G2 ltac:(discriminate)). nra. }
    pose proof (s2t_inside c u Fc Nc Ic Dc U) as Q. pose proof (proj2 (Rc (s2t c u) (c_t1 c)) Q). unfold set_start_on. lra.
  - inversion Tpost as [|? ? (_ & _ & Pd & _) Tp]; subst. inversion NP; subst.
    pose proof (total_nonneg post H2). change (total (d :: post)) with (c_length d + total post). lra.
Qed.
Lemma end_wf a l pres s n' : flat l -> trimmable (Chain a l) -> 0 < s <= 1 ->
  n_set_end pres (Chain a l) s = Ok n' -> wf n'.
Proof.
  intros Fl Tr Hs EQ. destruct (trimmable_wf _ Tr) as (A & W & Fr & P).
  destruct (set_end_spec _ A W Fr pres s) as (pre & c & post & u & n2 & L & S1 & L' & E & G1 & G2 & G3).
  rewrite EQ in S1. injection S1 as <-. destruct (flat_set_end _ _ _ _ _ Fl EQ) as (l' & -> & Fl').
  destruct a; [|discriminate A]. change (leaves (Chain true ?x)) with (leaves_of x) in *.
  assert (TL : n_length (Chain true l) = total (leaves_of l)) by apply length_array_leaves. rewrite TL in *.
  destruct Tr as [_ Tr]. change (leaves (Chain true l)) with (leaves_of l) in Tr.
  pose proof W as W2. apply wf_chain in W2. destruct W2 as [TP _].
  assert (TT : total (leaves_of l) = total pre + c_length c + total post) by (rewrite L, total_app; unfold total; cbn; ring).
  rewrite L in Tr. apply Forall_app in Tr. destruct Tr as [Tpre Tr].
  inversion Tr as [|? ? (Fc & Nc & Pc & Rc & Ic & Dc) Tpost]; subst.
  assert (NP : Forall (fun c => 0 <= c_length c) pre)
    by (eapply Forall_impl; [|exact Tpre]; cbn; intros ? (_ & _ & ? & _); lra).
  pose proof (proj1 (Rc (c_t0 c) (s2t c u))) as NN'. fold (set_end_on c u) in NN'.
  apply flat_wf; [exact Fl'|rewrite L'; apply Forall_app; split; [|constructor]; auto|].
  rewrite L', total_app. change (total [set_end_on c u]) with (c_length (set_end_on c u) + 0).
  pose proof (total_nonneg pre NP) as Np.
  destruct pre as [|d pre].
  - change (total []) with 0 in *. specialize (G1 ltac:(lra) ltac:(lra)).
    assert (U : 0 < u <= 1).
    { split; [nra|]. destruct post as [|e post]; [change (total []) with 0 in *; nra|]. specialize (G3 ltac:(discriminate)). nra. }
    pose proof (s2t_inside0 c u Fc Nc Ic Dc U) as Q.
    assert (Q' : c_t0 c <> s2t c u) by (intros Z; apply Q; symmetry; exact Z).
    pose proof (proj2 (Rc (c_t0 c) (s2t c u)) Q'). unfold set_end_on. lra.
  - inversion Tpre as [|? ? (_ & _ & Pd & _) Tp]; subst. inversion NP; subst.
    pose proof (total_nonneg pre H2). change (total (d :: pre)) with (c_length d + total pre). lra.
Qed.


(** Trimming and cutting chains of single curves. *)
Theorem C38_flat_set_start a l pres s : flat l -> trimmable (Chain a l) -> 0 <= s < 1 ->
  exists n', n_set_start pres (Chain a l) s = Ok n' /\
    n_eval n' 0 = n_eval (Chain a l) s /\ n_eval n' 1 = n_eval (Chain a l) 1.
Proof.
  intros Fl Tr Hs. destruct (C38_set_start a l pres s Tr) as (n' & E & H). exists n'. split; [exact E|].
  apply H. eapply start_wf; eauto.
Qed.
Theorem C38_flat_set_end a l pres s : flat l -> trimmable (Chain a l) -> 0 < s <= 1 ->
  exists n', n_set_end pres (Chain a l) s = Ok n' /\
    n_eval n' 1 = n_eval (Chain a l) s /\ n_eval n' 0 = n_eval (Chain a l) 0.
Proof.
  intros Fl Tr Hs. destruct (C38_set_end a l pres s Tr ltac:(lra)) as (n' & E & H). exists n'. split; [exact E|].
  apply H. eapply end_wf; eauto.
Qed.
Theorem C38_cut a l pres s : flat l -> trimmable (Chain a l) -> 0 < s < 1 ->
  exists n1 n2, n_cut pres (Chain a l) s = Ok (n1, n2) /\
    n_eval n1 0 = n_eval (Chain a l) 0 /\ n_eval n1 1 = n_eval (Chain a l) s /\
    n_eval n2 0 = n_eval (Chain a l) s /\ n_eval n2 1 = n_eval (Chain a l) 1.
Proof.
  intros Fl Tr Hs. destruct (trimmable_wf _ Tr) as (A & W & Fr & P).
  destruct (C38_flat_set_start a l pres s Fl Tr ltac:(lra)) as (n2 & E2 & A2 & B2).
  destruct (C38_flat_set_end a l pres s Fl Tr ltac:(lra)) as (n1 & E1 & A1 & B1).
  assert (U1 : n_update n1 = n1).
  { destruct (set_end_spec _ A W Fr pres s) as (pre & c & post & u & n' & L & S1 & L' & _).
    rewrite E1 in S1. injection S1 as <-. apply update_id.
    - apply active_leaves. rewrite L'. destruct pre; discriminate.
    - rewrite L'. rewrite L in Fr. apply Forall_app in Fr. apply Forall_app. split; [tauto|].
      constructor; [apply set_end_fresh|constructor]. }
  assert (U2 : n_update n2 = n2).
  { destruct (set_start_spec _ A W Fr pres s) as (pre & c & post & u & n' & L & S1 & L' & _).
    rewrite E2 in S1. injection S1 as <-. apply update_id.
    - apply active_leaves. rewrite L'. discriminate.
    - rewrite L'. rewrite L in Fr. apply Forall_app in Fr. destruct Fr as [_ Fr]. inversion Fr; subst.
      constructor; [apply set_start_fresh|assumption]. }
  exists n1, n2. unfold n_cut. rewrite E2, E1. cbn [bind]. rewrite U1, U2. auto.
Qed.

Lemma Ok_inj {A} (x y : A) : Ok x = Ok y -> x = y.
Proof. congruence. Qed.

(** The parts dropped are exactly those before (after) the cut, and with
    [preserve_inactive_curves] every slot stays. *)
Theorem C38_preserve_slots a l s n' : n_set_start true (Chain a l) s = Ok n' ->
  exists l', n' = Chain a l' /\ length l' = length l.
Proof.
  change (n_set_start true (Chain a l) s) with (bind (get_s_index l s) (fun iu =>
        bind (nth (fst iu) (map (n_set_start false) l) (fun _ => Err IndexError) (snd iu)) (fun m =>
          Ok (Chain a (map refresh (map n_deactivate (firstn (fst iu) l) ++ m :: skipn (S (fst iu)) l)))))).
  destruct (get_s_index l s) as [iu|]; cbn [bind]; [|discriminate].
  destruct (nth _ _ _ _) eqn:E; cbn [bind]; [|discriminate]. intros H0. apply Ok_inj in H0. subst n'.
  eexists. split; [reflexivity|].
  assert (Hi : (fst iu < length l)%nat).
  { destruct (Nat.lt_ge_cases (fst iu) (length l)) as [H|H]; [exact H|].
    rewrite nth_overflow in E by (rewrite map_length; exact H). discriminate. }
  rewrite map_length, app_length, map_length, firstn_length. cbn [length]. rewrite skipn_length. lia.
Qed.
Theorem C38_preserve_slots_end a l s n' : n_set_end true (Chain a l) s = Ok n' ->
  exists l', n' = Chain a l' /\ length l' = length l.
Proof.
  change (n_set_end true (Chain a l) s) with (bind (get_s_index l s) (fun iu =>
        bind (nth (fst iu) (map (n_set_end false) l) (fun _ => Err IndexError) (snd iu)) (fun m =>
          Ok (Chain a (map refresh (firstn (fst iu) l ++ m :: map n_deactivate (skipn (S (fst iu)) l))))))).
  destruct (get_s_index l s) as [iu|]; cbn [bind]; [|discriminate].
  destruct (nth _ _ _ _) eqn:E; cbn [bind]; [|discriminate]. intros H0. apply Ok_inj in H0. subst n'.
  eexists. split; [reflexivity|].
  assert (Hi : (fst iu < length l)%nat).
  { destruct (Nat.lt_ge_cases (fst iu) (length l)) as [H|H]; [exact H|].
    rewrite nth_overflow in E by (rewrite map_length; exact H). discriminate. }
  rewrite map_length, app_length, firstn_length. cbn [length]. rewrite map_length, skipn_length. lia.
Qed.

(** Both trims at once: the second parameter is read on the already trimmed chain. *)
Theorem C38_start_and_end a l pres s0 s1 : trimmable (Chain a l) ->
  n_set_start_and_end pres (Chain a l) s0 s1 =
  bind (n_set_start pres (Chain a l) s0) (fun m => n_set_end pres m s1).
Proof.
  intros Tr. destruct (trimmable_wf _ Tr) as (A & W & Fr & P).
  destruct (get_index_spec a l s0 W) as (l1 & n & l2 & u & SP & E & An & _).
  assert (Hin : In n l) by (rewrite SP; apply in_app_iff; right; left; reflexivity).
  pose proof W as W0. apply wf_chain in W0. destruct W0 as [_ WF]. rewrite Forall_forall in WF.
  destruct a; [|discriminate A]. change (leaves (Chain true l)) with (leaves_of l) in *.
  assert (LS : leaves_of l = leaves_of l1 ++ leaves n ++ leaves_of l2)
    by (rewrite SP at 1; rewrite leaves_app; reflexivity).
  rewrite LS in Fr. apply Forall_app in Fr. destruct Fr as [_ Fr]. apply Forall_app in Fr. destruct Fr as [Fn Fl2].
  destruct (set_start_spec n An (WF n Hin An) Fn false u) as (pre & c & post & v & m & L & S1 & L' & _).
  unfold n_set_start_and_end.
  change (n_set_start pres (Chain true l) s0) with (bind (get_s_index l s0) (fun iu =>
        bind (nth (fst iu) (map (n_set_start false) l) (fun _ => Err IndexError) (snd iu)) (fun m =>
          Ok (Chain true (map refresh ((if pres then map n_deactivate (firstn (fst iu) l) else [])
                                     ++ m :: skipn (S (fst iu)) l)))))).
  rewrite E. cbn [bind fst snd].
  rewrite (nth_map' _ _ _ (Chain false [])) by (rewrite SP, app_length; cbn; lia).
  replace (nth (length l1) l (Chain false [])) with n by (rewrite SP, nth_middle; reflexivity).
  rewrite S1. cbn [bind].
  assert (SK : skipn (S (length l1)) l = l2).
  { rewrite SP. replace (S (length l1)) with (length (l1 ++ [n])) by (rewrite app_length; cbn; lia).
    replace (l1 ++ n :: l2) with ((l1 ++ [n]) ++ l2) by (rewrite <- app_assoc; reflexivity).
    rewrite skipn_app, skipn_all, Nat.sub_diag. reflexivity. }
  rewrite SK. set (l' := (if pres then map n_deactivate (firstn (length l1) l) else []) ++ m :: l2).
  rewrite (refresh_list l'); [reflexivity|].
  unfold l'. rewrite leaves_app. apply Forall_app. split.
  - destruct pres; [rewrite leaves_deactivate_list|]; constructor.
  - change (leaves_of (m :: l2)) with (leaves m ++ leaves_of l2). rewrite L'. apply Forall_app. split; [|exact Fl2].
    rewrite L in Fn. apply Forall_app in Fn. destruct Fn as [_ Fn]. inversion Fn; subst.
    constructor; [apply set_start_fresh|assumption].
Qed.

(** So on one line from 0 to 1, asking for [1/2, 3/4] gives [1/2, 7/8]; the same call on the line
    itself gives [1/2, 3/4]. *)
Lemma single_eval a c s : c_act c = true -> 0 < c_length c -> n_eval (Chain a [Prim c]) s = Ok (c_eval c s).
Proof.
  intros A H. rewrite C37_travel by (apply positive_wf_chain; cbn; rewrite A; split; [discriminate|repeat constructor; exact H]).
  cbn. rewrite A. unfold total. cbn. unfold local. destruct (Req_EM_T (c_length c) 0); [lra|].
  do 2 f_equal. field. lra.
Qed.
Lemma single_inv {A} (x c : A) post : [x] ++ [] = [] ++ c :: post -> c = x /\ post = [].
Proof. cbn. intros E. split; congruence. Qed.
Lemma origin_right : ORIGIN <> RIGHT.
Proof. intros Z. unfold ORIGIN, RIGHT in Z. injection Z as Z. lra. Qed.
Definition unit_line : curve := line_curve ORIGIN RIGHT true.
Lemma unit_line_facts : c_act unit_line = true /\ c_length unit_line = 1 /\ fresh unit_line /\
  c_shape unit_line = SLine ORIGIN RIGHT /\ (2 <= c_ndiv unit_line)%nat /\ c_ss unit_line = [0; 1] /\
  c_t0 unit_line = 0 /\ c_t1 unit_line = 1.
Proof.
  assert (F : fresh unit_line) by apply new_fresh.
  destruct (fresh_line unit_line ORIGIN RIGHT F eq_refl) as (E1 & E2 & E3).
  repeat split; auto.
  - rewrite E3. change (c_t1 unit_line) with 1. change (c_t0 unit_line) with 0.
    replace (vsub RIGHT ORIGIN) with (V 1 0 0) by vec_ring. rewrite norm_x, !Rabs_right by lra. ring.
  - change (2 <= 21)%nat. lia.
Qed.
Lemma line_trimmable p q : p <> q -> trimmable (Chain true [Prim (line_curve p q true)]).
Proof.
  intros H. assert (F : fresh (line_curve p q true)) by apply new_fresh.
  destruct (fresh_line (line_curve p q true) p q F eq_refl) as (E1 & E2 & E3).
  change (c_t1 (line_curve p q true)) with 1 in E3. change (c_t0 (line_curve p q true)) with 0 in E3.
  split; [discriminate|]. constructor; [|constructor]. split; [exact F|].
  split; [change (2 <= 21)%nat; lia|]. split.
  { destruct (line_regular (line_curve p q true) p q eq_refl H 0 1) as [_ Q]. specialize (Q ltac:(lra)).
    exact Q. }
  split; [exact (line_regular (line_curve p q true) p q eq_refl H)|]. rewrite E2. split; [cbn; lra|].
  change (0 <> 1). lra.
Qed.

Theorem C38_both_ends_refuted : exists l n' p,
  trimmable (Chain true l) /\ n_set_start_and_end false (Chain true l) (1/2) (3/4) = Ok n' /\
  n_eval (Chain true l) (3/4) = Ok p /\ n_eval n' 1 <> Ok p.
Proof.
  assert (Tr : trimmable (Chain true [Prim unit_line])).
  { apply line_trimmable. apply origin_right. }
  destruct unit_line_facts as (A & L & F & Sh & N & SS & T0 & T1).
  assert (FL : flat [Prim unit_line]) by (repeat constructor; eauto).
  destruct (trimmable_wf _ Tr) as (A' & W & Fr & P).
  destruct (set_start_spec _ A' W Fr false (1/2)) as (pre & c & post & u & n1 & LL & S1 & L' & E & _).
  pose proof (start_wf true [Prim unit_line] false (1/2) n1 FL Tr ltac:(lra) S1) as W1.
  destruct (flat_set_start _ _ _ _ _ FL S1) as (l1 & -> & Fl1).
  change (leaves (Chain true [Prim unit_line])) with ((if c_act unit_line then [unit_line] else []) ++ []) in LL.
  rewrite A in LL. destruct pre as [|? pre]; [|destruct pre; discriminate]. apply single_inv in LL. destruct LL as [-> ->].
  rewrite single_eval in E by (try exact A; lra). apply Ok_inj in E.
  assert (U : s2t unit_line u = 1 / 2).
  { unfold c_eval in E. rewrite (s2t_two_points unit_line (1/2)) in E by (rewrite ?T0, ?T1; auto).
    rewrite T0, T1 in E. revert E. generalize (s2t unit_line u). intros t E.
    unfold c_fun in E. rewrite Sh in E. apply (f_equal vx) in E. cbn in E. lra. }
  set (c1 := set_start_on unit_line u) in *.
  assert (F1 : fresh c1) by apply set_start_fresh.
  assert (S1' : c_shape c1 = SLine ORIGIN RIGHT) by reflexivity.
  assert (T01 : c_t0 c1 = 1 / 2) by exact U.
  assert (T11 : c_t1 c1 = 1) by reflexivity.
  destruct (fresh_line c1 _ _ F1 S1') as (E1 & E2 & E3).
  assert (TR1 : trimmable (Chain true l1)).
  { split; [rewrite L'; discriminate|]. rewrite L'. constructor; [|constructor].
    assert (Rg : regular c1) by (apply (line_regular c1 ORIGIN RIGHT S1'); apply origin_right).
    split; [exact F1|]. split; [exact N|].
    split. { rewrite E3, T01, T11. replace (vsub RIGHT ORIGIN) with (V 1 0 0) by vec_ring.
             rewrite norm_x, !Rabs_right by lra. lra. }
    split; [exact Rg|]. rewrite E2. split; [cbn; lra|]. rewrite T01, T11. lra. }
  destruct (C38_flat_set_end true l1 false (3/4) Fl1 TR1 ltac:(lra)) as (n2 & S2 & E4 & _).
  exists [Prim unit_line], n2, (c_eval unit_line (3/4)). split; [exact Tr|]. split.
  { rewrite C38_start_and_end by exact Tr. rewrite S1. exact S2. }
  split; [apply single_eval; [exact A|lra]|]. rewrite E4.
  rewrite C37_travel by exact W1. change (leaves (Chain true l1)) with (leaves_of l1) in L'. rewrite L'.
  unfold total. cbn [map lsum walk]. unfold local.
  assert (CL : c_length c1 = 1 / 2).
  { rewrite E3, T01, T11. replace (vsub RIGHT ORIGIN) with (V 1 0 0) by vec_ring.
    rewrite norm_x, !Rabs_right by lra. lra. }
  rewrite CL. destruct (Req_EM_T (1/2) 0); [lra|].
  replace (3 / 4 * (1 / 2 + 0) / (1 / 2)) with (3 / 4) by lra.
  unfold c_eval. rewrite (s2t_two_points c1) by assumption. rewrite (s2t_two_points unit_line) by (rewrite ?T0, ?T1; auto).
  rewrite T01, T11, T0, T1. unfold c_fun. rewrite S1', Sh. cbn. intros Z. injection Z as Z. lra.
Qed.

(** Trimming away everything: the chain is left with length zero and cannot be evaluated. *)
Theorem C38_trim_to_nothing_refuted : exists l n',
  trimmable (Chain true l) /\ n_set_start false (Chain true l) 1 = Ok n' /\
  n_eval n' 0 = Err ZeroDivisionError.
Proof.
  assert (Tr : trimmable (Chain true [Prim unit_line])).
  { apply line_trimmable. apply origin_right. }
  destruct unit_line_facts as (A & L & F & Sh & N & SS & T0 & T1).
  assert (FL : flat [Prim unit_line]) by (repeat constructor; eauto).
  destruct (trimmable_wf _ Tr) as (A' & W & Fr & P).
  destruct (set_start_spec _ A' W Fr false 1) as (pre & c & post & u & n1 & LL & S1 & L' & E & _).
  exists [Prim unit_line], n1. split; [exact Tr|]. split; [exact S1|].
  destruct (flat_set_start _ _ _ _ _ FL S1) as (l1 & -> & Fl1).
  change (leaves (Chain true [Prim unit_line])) with ((if c_act unit_line then [unit_line] else []) ++ []) in LL.
  rewrite A in LL. destruct pre as [|? pre]; [|destruct pre; discriminate]. apply single_inv in LL. destruct LL as [-> ->].
  rewrite single_eval in E by (try exact A; lra). apply Ok_inj in E.
  assert (U : s2t unit_line u = 1).
  { unfold c_eval in E. rewrite (s2t_two_points unit_line 1) in E by (rewrite ?T0, ?T1; auto).
    rewrite T0, T1 in E. revert E. generalize (s2t unit_line u). intros t E.
    unfold c_fun in E. rewrite Sh in E. apply (f_equal vx) in E. cbn in E. lra. }
  change (leaves (Chain true l1)) with (leaves_of l1) in L'.
  apply C36_zero_length.
  - assert (Q : n_active (Chain true l1) = true) by (apply active_leaves; change (leaves_of l1 <> []); rewrite L'; discriminate).
    exact Q.
  - rewrite length_array_leaves, L'. unfold total. cbn [map lsum].
    destruct (fresh_line (set_start_on unit_line u) ORIGIN RIGHT (set_start_fresh _ _) eq_refl) as (_ & _ & ->).
    change (c_t0 (set_start_on unit_line u)) with (s2t unit_line u). change (c_t1 (set_start_on unit_line u)) with 1.
    rewrite U, Rminus_eq_0, Rabs_R0. ring.
Qed.

(** Example: an L made of a line and a nested chain holding an inactive and an active line. *)
Definition ell : list node :=
  [Prim (line_curve ORIGIN RIGHT true);
   Chain true [Prim (line_curve RIGHT ORIGIN false); Prim (line_curve RIGHT (V 1 3 0) true)]].
Lemma line_good p q : p <> q -> fresh (line_curve p q true) /\ (2 <= c_ndiv (line_curve p q true))%nat /\
  0 < c_length (line_curve p q true) /\ regular (line_curve p q true) /\
  incr (c_ss (line_curve p q true)) /\ c_t0 (line_curve p q true) <> c_t1 (line_curve p q true).
Proof.
  intros H. destruct (line_trimmable p q H) as [_ F]. change (leaves _) with [line_curve p q true] in F.
  inversion F; assumption.
Qed.
Example ell_trimmable : trimmable (Chain true ell) /\ joined (leaves_of ell).
Proof.
  split.
  - split; [discriminate|]. change (leaves (Chain true ell)) with
      [line_curve ORIGIN RIGHT true; line_curve RIGHT (V 1 3 0) true].
    repeat (constructor; [apply line_good|]); [apply origin_right| |constructor].
    intros Z. unfold RIGHT in Z. injection Z as Z. lra.
  - change (leaves_of ell) with [line_curve ORIGIN RIGHT true; line_curve RIGHT (V 1 3 0) true].
    split; [|exact I]. destruct (C32_ends ORIGIN RIGHT) as [_ ->]. destruct (C32_ends RIGHT (V 1 3 0)) as [-> _]. reflexivity.
Qed.
Example ell_quarter : n_eval (Chain true ell) (1 / 4) = Ok RIGHT /\ n_eval (Chain true ell) (5 / 8) = Ok (V 1 (3/2) 0).
Proof.
  destruct ell_trimmable as [Tr _]. destruct (trimmable_wf _ Tr) as (A & W & Fr & P).
  rewrite !C37_travel by exact W.
  change (leaves_of ell) with [line_curve ORIGIN RIGHT true; line_curve RIGHT (V 1 3 0) true].
  assert (L1 : c_length (line_curve ORIGIN RIGHT true) = 1) by apply unit_line_facts.
  assert (L2 : c_length (line_curve RIGHT (V 1 3 0) true) = 3).
  { destruct (fresh_line (line_curve RIGHT (V 1 3 0) true) RIGHT (V 1 3 0) (new_fresh _ _ _ _) eq_refl) as (_ & _ & ->).
    change (c_t1 (line_curve RIGHT (V 1 3 0) true)) with 1. change (c_t0 (line_curve RIGHT (V 1 3 0) true)) with 0.
    rewrite Rminus_0_r, Rabs_R1, Rmult_1_r. unfold norm.
    replace (dot _ _) with (3 * 3) by (unfold dot, vsub, RIGHT; cbn; ring). apply sqrt_square. lra. }
  unfold total. cbn [map lsum walk]. unfold local. rewrite L1, L2.
  destruct (Req_EM_T 1 0); [lra|]. destruct (Req_EM_T 3 0); [lra|].
  destruct (Rle_dec (1 / 4 * (1 + (3 + 0))) 1); [|lra]. destruct (Rle_dec (5 / 8 * (1 + (3 + 0))) 1); [lra|].
  rewrite !line_eval. split; f_equal; unfold RIGHT, ORIGIN, vadd, smul, vsub; cbn; f_equal; field.
Qed.
Lemma ell_facts : wf (Chain true ell) /\ positive (leaves_of ell).
Proof. destruct (trimmable_wf _ (proj1 ell_trimmable)) as (A & W & Fr & P). split; [exact W|exact P]. Qed.
Definition flat_ell : list node := [Prim (line_curve ORIGIN RIGHT true); Prim (line_curve RIGHT (V 1 3 0) true)].
Lemma flat_ell_facts : flat flat_ell /\ trimmable (Chain true flat_ell).
Proof. split; [repeat constructor; eauto|]. exact (proj1 ell_trimmable). Qed.
Example C38_start_and_end_example : n_set_start_and_end true (Chain true ell) (1/8) (3/4) =
  bind (n_set_start true (Chain true ell) (1/8)) (fun m => n_set_end true m (3/4)).
Proof. apply C38_start_and_end. apply ell_trimmable. Qed.
Example C38_preserve_slots_end_example : exists l', n_set_end true (Chain true ell) (1/8) = Ok (Chain true l') /\ length l' = 2%nat.
Proof.
  destruct (C38_set_end true ell true (1/8) (proj1 ell_trimmable)) as (n' & E & _); [lra|].
  destruct (C38_preserve_slots_end _ _ _ _ E) as (l' & -> & L). exists l'. split; [exact E|exact L].
Qed.
Example C38_preserve_slots_example : exists l', n_set_start true (Chain true ell) (1/2) = Ok (Chain true l') /\ length l' = 2%nat.
Proof.
  destruct (C38_set_start true ell true (1/2) (proj1 ell_trimmable)) as (n' & E & _).
  destruct (C38_preserve_slots _ _ _ _ E) as (l' & -> & L). exists l'. split; [exact E|exact L].
Qed.
Example C38_cut_example : exists n1 n2, n_cut true (Chain true flat_ell) (1/2) = Ok (n1, n2) /\
  n_eval n1 0 = n_eval (Chain true flat_ell) 0 /\ n_eval n1 1 = n_eval (Chain true flat_ell) (1/2) /\
  n_eval n2 0 = n_eval (Chain true flat_ell) (1/2) /\ n_eval n2 1 = n_eval (Chain true flat_ell) 1.
Proof. apply C38_cut; [apply flat_ell_facts|apply flat_ell_facts|lra]. Qed.
Example C38_flat_set_end_example : exists n', n_set_end true (Chain true flat_ell) (1/2) = Ok n' /\
  n_eval n' 1 = n_eval (Chain true flat_ell) (1/2) /\ n_eval n' 0 = n_eval (Chain true flat_ell) 0.
Proof. apply C38_flat_set_end; [apply flat_ell_facts|apply flat_ell_facts|lra]. Qed.
Example C38_flat_set_start_example : exists n', n_set_start false (Chain true flat_ell) (1/2) = Ok n' /\
  n_eval n' 0 = n_eval (Chain true flat_ell) (1/2) /\ n_eval n' 1 = n_eval (Chain true flat_ell) 1.
Proof. apply C38_flat_set_start; [apply flat_ell_facts|apply flat_ell_facts|lra]. Qed.
Example C38_set_end_example : exists n', n_set_end false (Chain true ell) (1/2) = Ok n' /\
  (wf n' -> n_eval n' 1 = n_eval (Chain true ell) (1/2) /\ n_eval n' 0 = n_eval (Chain true ell) 0).
Proof. apply C38_set_end; [apply ell_trimmable|lra]. Qed.
Example C38_set_start_example : exists n', n_set_start false (Chain true ell) (1/2) = Ok n' /\
  (wf n' -> n_eval n' 0 = n_eval (Chain true ell) (1/2) /\ n_eval n' 1 = n_eval (Chain true ell) 1).
Proof. apply C38_set_start. apply ell_trimmable. Qed.
Example C37_continuous_example eps : 0 < eps -> exists del, 0 < del /\ forall s', Rabs (s' - 1/4) < del ->
    exists p q, n_eval (Chain true ell) (1/4) = Ok p /\ n_eval (Chain true ell) s' = Ok q /\ norm (vsub q p) < eps.
Proof.
  apply C37_continuous; [apply ell_facts|apply ell_trimmable|].
  change (leaves_of ell) with [line_curve ORIGIN RIGHT true; line_curve RIGHT (V 1 3 0) true].
  repeat constructor; intros y; apply C37_lines_continuous.
Qed.
Example C37_nesting_example : n_eval (Chain true ell) (1/3) =
  n_eval (Chain true [Prim (line_curve ORIGIN RIGHT true); Prim (line_curve RIGHT (V 1 3 0) true)]) (1/3).
Proof. apply (C37_nesting true true ell (1/3)). apply ell_facts. Qed.
Example C37_ends_example :
  n_eval (Chain true ell) 0 = Ok ORIGIN /\ n_eval (Chain true ell) 1 = Ok (V 1 3 0).
Proof.
  destruct (C37_ends true ell unit_line) as [E1 E2]; [apply ell_facts|]. rewrite E1, E2. split; f_equal.
  - exact (proj1 (C32_ends ORIGIN RIGHT)).
  - exact (proj2 (C32_ends RIGHT (V 1 3 0))).
Qed.
Example C37_proportional_example : exists i u n,
  get_s_index ell (1/2) = Ok (i, u) /\ nth_error ell i = Some n /\
  lsum (firstn i (length_array ell)) + u * n_length n = 1/2 * lsum (length_array ell).
Proof. apply (C37_proportional true ell (1/2)); [apply ell_facts|lra]. Qed.
Example C36_zero_length_example : n_eval (Chain true [Prim (line_curve RIGHT RIGHT true)]) (1/2) = Err ZeroDivisionError.
Proof.
  apply C36_zero_length; [reflexivity|]. rewrite length_array_leaves.
  change (leaves_of [Prim (line_curve RIGHT RIGHT true)]) with [line_curve RIGHT RIGHT true].
  unfold total. cbn [map lsum].
  destruct (fresh_line (line_curve RIGHT RIGHT true) RIGHT RIGHT (new_fresh _ _ _ _) eq_refl) as (_ & _ & ->).
  replace (vsub RIGHT RIGHT) with (V 0 0 0) by vec_ring. rewrite norm_x, (Rabs_right 0) by lra. ring.
Qed.
Example C36_selects_positive_example : exists i u n,
  get_s_index ell (1/2) = Ok (i, u) /\ nth_error ell i = Some n /\ 0 < n_length n /\ 0 <= u <= 1.
Proof. apply (C36_selects_positive true ell (1/2)); [apply ell_facts|lra]. Qed.
Example C36_selects_active_example : exists i u n, get_s_index ell (1/2) = Ok (i, u) /\ nth_error ell i = Some n /\ n_active n = true.
Proof. apply (C36_selects_active true ell (1/2)). apply ell_facts. Qed.

(** ** C39 *)

(** The list operations on up-to-date chains, in terms of the flattened sequence. *)
Definition all_fresh (l : list node) : Prop := Forall fresh (leaves_of l).
Theorem C39_append a l x : all_fresh (l ++ [x]) ->
  get_curves (Chain a (ch_append l x)) = get_curves (Chain a l) ++ get_curves x /\
  length (ch_append l x) = S (length l).
Proof.
  intros F. unfold ch_append. rewrite refresh_list by exact F. split.
  - cbn. rewrite flat_map_app. cbn. rewrite app_nil_r. reflexivity.
  - rewrite app_length. cbn. lia.
Qed.
Example C39_append_example : get_curves (Chain true (ch_append ell (Prim unit_line))) =
  get_curves (Chain true ell) ++ [unit_line] /\ length (ch_append ell (Prim unit_line)) = 3%nat.
Proof. apply C39_append. repeat constructor; apply new_fresh. Qed.
Theorem C39_extend a l xs : all_fresh (l ++ xs) ->
  get_curves (Chain a (ch_extend l xs)) = get_curves (Chain a l) ++ flat_map get_curves xs /\
  length (ch_extend l xs) = (length l + length xs)%nat.
Proof.
  intros F. unfold ch_extend. rewrite refresh_list by exact F. split.
  - cbn. apply flat_map_app.
  - apply app_length.
Qed.
Example C39_extend_example : get_curves (Chain true (ch_extend ell ell)) =
  get_curves (Chain true ell) ++ get_curves (Chain true ell) /\ length (ch_extend ell ell) = 4%nat.
Proof. apply (C39_extend true ell ell). repeat constructor; apply new_fresh. Qed.
Theorem C39_insert a l i x : all_fresh (x :: l) ->
  exists k, (k <= length l)%nat /\
    ((0 <= i <= Z.of_nat (length l))%Z -> Z.of_nat k = i) /\
    ((- Z.of_nat (length l) <= i < 0)%Z -> Z.of_nat k = (Z.of_nat (length l) + i)%Z) /\
    ((Z.of_nat (length l) < i)%Z -> k = length l) /\ ((i < - Z.of_nat (length l))%Z -> k = 0%nat) /\
    nth_error (ch_insert l i x) k = Some x /\
    get_curves (Chain a (ch_insert l i x)) =
      flat_map get_curves (firstn k l) ++ get_curves x ++ flat_map get_curves (skipn k l).
Proof.
  intros F. exists (insert_index (length l) i). unfold ch_insert. set (k := insert_index (length l) i).
  assert (KL : (k <= length l)%nat).
  { unfold k, insert_index.
    destruct (Z.ltb_spec i 0); repeat match goal with |- context [(?x <? ?y)%Z] => destruct (Z.ltb_spec x y) end; lia. }
  rewrite refresh_list.
  - split; [exact KL|]. unfold k, insert_index. repeat split.
    1-4: intros H; destruct (Z.ltb_spec i 0); repeat match goal with |- context [(?x <? ?y)%Z] => destruct (Z.ltb_spec x y) end; lia.
    + fold (insert_index (length l) i). fold k. rewrite nth_error_app2; rewrite firstn_length_le by exact KL; [|lia].
      rewrite Nat.sub_diag. reflexivity.
    + fold (insert_index (length l) i). fold k. cbn. rewrite flat_map_app. reflexivity.
  - unfold all_fresh in F. change (leaves_of (x :: l)) with (leaves x ++ leaves_of l) in F.
    apply Forall_app in F. destruct F as [Fx Fl].
    rewrite <- (firstn_skipn k l), leaves_app in Fl. apply Forall_app in Fl. destruct Fl as [F1 F2].
    rewrite leaves_app. apply Forall_app. split; [exact F1|].
    change (leaves_of (x :: skipn k l)) with (leaves x ++ leaves_of (skipn k l)). apply Forall_app. auto.
Qed.
Example C39_insert_example : nth_error (ch_insert ell (-1) (Prim unit_line)) 1 = Some (Prim unit_line).
Proof.
  destruct (C39_insert true ell (-1) (Prim unit_line)) as (k & _ & _ & K & _ & _ & N & _).
  - repeat constructor; apply new_fresh.
  - cbn in K. replace k with 1%nat in N by lia. exact N.
Qed.
Theorem C39_pop a l i : all_fresh l ->
  match ch_pop l i with
  | Ok (x, l') => exists l1 l2, l = l1 ++ x :: l2 /\ l' = l1 ++ l2 /\
      Z.of_nat (length l1) = (if i <? 0 then i + Z.of_nat (length l) else i)%Z /\
      get_curves (Chain a l') = flat_map get_curves l1 ++ flat_map get_curves l2
  | Err e => e = IndexError /\ ((i < - Z.of_nat (length l))%Z \/ (Z.of_nat (length l) <= i)%Z)
  end.
Proof.
  intros F. unfold ch_pop, norm_index. set (j := if (i <? 0)%Z then _ else _).
  destruct ((0 <=? j)%Z && (j <? Z.of_nat (length l))%Z) eqn:E.
  - apply andb_true_iff in E. destruct E as [E1 E2].
    assert (K : (Z.to_nat j < length l)%nat) by lia.
    destruct (nth_error l (Z.to_nat j)) as [x|] eqn:NE; [|apply nth_error_None in NE; lia].
    apply nth_error_split in NE. destruct NE as (l1 & l2 & SP & L1).
    exists l1, l2. split; [exact SP|].
    assert (Q1 : firstn (Z.to_nat j) l = l1) by (rewrite SP, <- L1, firstn_app, Nat.sub_diag, firstn_all, app_nil_r; reflexivity).
    assert (Q2 : skipn (S (Z.to_nat j)) l = l2).
    { rewrite SP, <- L1. replace (S (length l1)) with (length (l1 ++ [x])) by (rewrite app_length; cbn; lia).
      replace (l1 ++ x :: l2) with ((l1 ++ [x]) ++ l2) by (rewrite <- app_assoc; reflexivity).
      rewrite skipn_app, skipn_all, Nat.sub_diag. reflexivity. }
    rewrite Q1, Q2. rewrite refresh_list.
    + split; [reflexivity|]. split; [rewrite L1; lia|]. cbn. apply flat_map_app.
    + unfold all_fresh in F. rewrite SP, leaves_app in F. apply Forall_app in F. destruct F as [F1 F2].
      change (leaves_of (x :: l2)) with (leaves x ++ leaves_of l2) in F2. apply Forall_app in F2.
      rewrite leaves_app. apply Forall_app. tauto.
  - split; [reflexivity|]. apply andb_false_iff in E. unfold j in E. destruct (i <? 0)%Z eqn:Q; destruct E; lia.
Qed.
Example C39_pop_example : all_fresh ell /\ ch_pop ell 2 = Err IndexError.
Proof. split; [repeat constructor; apply new_fresh|reflexivity]. Qed.

(** Removing the inactive members changes no point of the chain. *)
Lemma leaves_filter l : leaves_of (filter n_active l) = leaves_of l.
Proof.
  induction l as [|m l IH]; [reflexivity|]. cbn. destruct (n_active m) eqn:E; cbn; fold (leaves_of l); fold (leaves_of (filter n_active l)); rewrite IH.
  - reflexivity.
  - apply inactive_leaves in E. rewrite E. reflexivity.
Qed.
Theorem C39_del_inactive a l s : wf (Chain a l) ->
  n_eval (Chain a (ch_del_inactive l)) s = n_eval (Chain a l) s.
Proof.
  intros W. rewrite !C37_travel; [unfold ch_del_inactive; rewrite leaves_filter; reflexivity|exact W|].
  apply wf_chain in W. apply wf_chain. unfold ch_del_inactive. rewrite leaves_filter. split; [apply W|].
  apply Forall_forall. intros m Hm. apply filter_In in Hm. destruct W as [_ W]. rewrite Forall_forall in W. apply W, Hm.
Qed.
Example C39_del_inactive_example : n_eval (Chain true (ch_del_inactive ell)) (1/3) = n_eval (Chain true ell) (1/3).
Proof. apply C39_del_inactive. apply ell_facts. Qed.

(** Reversal, for any nesting. *)
Lemma rev_flat_map {A B} (f : A -> list B) l : flat_map f (rev l) = rev (flat_map (fun x => rev (f x)) l).
Proof.
  induction l as [|x l IH]; [reflexivity|]. cbn. rewrite flat_map_app, IH, rev_app_distr, rev_involutive. cbn.
  rewrite app_nil_r. reflexivity.
Qed.
Theorem C39_reverse n : get_curves (n_reverse n) = rev (map c_reverse (get_curves n)).
Proof.
  induction n as [c|a l IH] using node_rect'; [reflexivity|]. cbn. rewrite rev_flat_map. f_equal.
  induction IH as [|m l Hm HF IHl]; [reflexivity|]. cbn. rewrite map_app. f_equal; [|exact IHl].
  rewrite Hm, rev_involutive. reflexivity.
Qed.
Theorem C39_reverse_twice n : n_reverse (n_reverse n) = n.
Proof.
  induction n as [c|a l IH] using node_rect'; cbn; [f_equal; apply C30_involution|]. f_equal.
  rewrite map_rev, rev_involutive, map_map. induction IH as [|m l Hm HF IHl]; cbn; [reflexivity|]. f_equal; assumption.
Qed.

Lemma reverse_act c : c_act (c_reverse c) = c_act c.
Proof. unfold c_reverse. destruct (c_shape c); reflexivity. Qed.
Lemma reverse_len c : c_length (c_reverse c) = c_length c.
Proof. unfold c_reverse. destruct (c_shape c); reflexivity. Qed.
Lemma leaves_reverse n : leaves (n_reverse n) = rev (map c_reverse (leaves n)).
Proof.
  induction n as [c|a l IH] using node_rect'.
  - cbn. rewrite reverse_act. destruct (c_act c); reflexivity.
  - cbn. destruct a; [|reflexivity]. rewrite rev_flat_map. f_equal.
    induction IH as [|m l Hm HF IHl]; [reflexivity|]. cbn. rewrite map_app. f_equal; [|exact IHl].
    rewrite Hm, rev_involutive. reflexivity.
Qed.
Lemma positive_rev cs : positive cs -> positive (rev (map c_reverse cs)).
Proof.
  intros [N P]. split.
  - intros Z. apply N. apply (f_equal (@length _)) in Z. rewrite rev_length, map_length in Z. destruct cs; [reflexivity|discriminate].
  - apply Forall_rev, Forall_map. eapply Forall_impl; [|exact P]. cbn. intros c. rewrite reverse_len. tauto.
Qed.
Lemma total_perm cs : total (rev (map c_reverse cs)) = total cs.
Proof.
  induction cs as [|c cs IH]; [reflexivity|]. cbn [map rev]. rewrite total_app, IH. unfold total. cbn. rewrite reverse_len. ring.
Qed.

(** A curve whose reversal runs through the same points backwards without a refresh. *)
Definition symmetric (c : curve) : Prop := forall s, c_eval (c_reverse c) s = c_eval c (1 - s).

Lemma joined_app a b : joined (a ++ b) -> joined a /\ joined b.
Proof.
  induction a as [|c a IH]; [cbn; auto|]. destruct a as [|d a].
  - destruct b as [|e b]; [cbn; auto|]. cbn. intros [_ H]. auto.
  - intros [H1 H2]. destruct (IH H2). split; [split|]; assumption.
Qed.
Lemma joined_at a c d b : joined (a ++ c :: d :: b) -> c_eval c 1 = c_eval d 0.
Proof. intros H. apply joined_app in H. destruct H as [_ H]. apply H. Qed.

Lemma walk_split cs y : positive cs -> exists a c b, cs = a ++ c :: b /\
  (a = [] \/ total a < y) /\ (b = [] \/ y <= total a + c_length c) /\
  walk cs y = c_eval c ((y - total a) / c_length c).
Proof.
  intros [N P]. revert y. induction P as [|c r Hc HF IH]; intros y; [contradiction|].
  destruct r as [|d r].
  - exists [], c, []. cbn [app walk]. repeat split; auto. unfold local. destruct (Req_EM_T (c_length c) 0); [lra|].
    change (total []) with 0. f_equal. f_equal. ring.
  - rewrite walk_cons by discriminate. destruct (Rle_dec y (c_length c)) as [L|L].
    + exists [], c, (d :: r). change (total []) with 0. repeat split; auto; [right; lra|].
      unfold local. destruct (Req_EM_T (c_length c) 0); [lra|]. f_equal. f_equal. ring.
    + destruct (IH ltac:(discriminate) (y - c_length c)) as (a & e & b & E & A & B & W).
      exists (c :: a), e, b. rewrite E. change (total (c :: a)) with (c_length c + total a). repeat split.
      * right. destruct A as [-> |A]; [change (total []) with 0; lra|lra].
      * destruct B as [B|B]; [left; exact B|right; lra].
      * rewrite <- E, W. f_equal. f_equal. ring.
Qed.

Lemma walk_rev cs y : positive cs -> joined cs -> Forall symmetric cs ->
  walk (rev (map c_reverse cs)) (total cs - y) = walk cs y.
Proof.
  intros P J S. destruct (walk_split cs y P) as (a & c & b & E & A & B & ->).
  assert (NNr : forall l, Forall (fun c => 0 < c_length c) l -> Forall (fun c => 0 <= c_length c) (rev (map c_reverse l))).
  { intros l Hl. apply Forall_rev, Forall_map. eapply Forall_impl; [|exact Hl]. cbn. intros x. rewrite reverse_len. lra. }
  destruct P as [_ P]. rewrite E in P, S, J. pose proof P as P0. apply Forall_app in P. destruct P as [Pa P].
  inversion P as [|? ? Pc Pb]; subst x l. apply Forall_app in S. destruct S as [Sa S]. inversion S as [|? ? Sc Sb]; subst x l.
  assert (RV : rev (map c_reverse cs) = rev (map c_reverse b) ++ c_reverse c :: rev (map c_reverse a)).
  { rewrite E, map_app, rev_app_distr. cbn. rewrite <- app_assoc. reflexivity. }
  assert (TT : total cs = total a + c_length c + total b) by (rewrite E, total_app; unfold total; cbn; ring).
  rewrite RV. set (x := total cs - y).
  assert (XB : b = [] \/ total b <= x) by (destruct B as [B|B]; [left; exact B|right; unfold x; lra]).
  assert (XA : a = [] \/ x < total b + c_length c) by (destruct A as [A|A]; [left; exact A|right; unfold x; lra]).
  destruct (Req_EM_T x (total b)) as [Q|Q].
  - (* at the joint between [c] and [b] *)
    destruct b as [|d b].
    + cbn [rev map app]. destruct (rev (map c_reverse a)) eqn:RA.
      * cbn. unfold local. rewrite reverse_len. destruct (Req_EM_T (c_length c) 0); [lra|]. rewrite (Sc (x / c_length c)).
        f_equal. change (total []) with 0 in TT. unfold x. rewrite TT. field. lra.
      * rewrite walk_cons by discriminate. rewrite reverse_len. change (total []) with 0 in *.
        destruct (Rle_dec x (c_length c)); [|lra]. unfold local. rewrite reverse_len.
        destruct (Req_EM_T (c_length c) 0); [lra|]. rewrite (Sc (x / c_length c)). f_equal. unfold x. rewrite TT. field. lra.
    + inversion Pb as [|? ? Pd Pb']; subst x0 l. inversion Sb as [|? ? Sd Sb']; subst x0 l.
      rewrite walk_app_l; [|apply NNr, Pb| |right; rewrite total_perm; lra].
      2:{ cbn. destruct (rev (map c_reverse b)); discriminate. }
      cbn [map rev]. rewrite walk_app_r; [|apply NNr, Pb'|discriminate|right; rewrite total_perm, Q; unfold total; cbn; lra].
      rewrite total_perm. cbn [walk]. unfold local. rewrite reverse_len. destruct (Req_EM_T (c_length d) 0); [lra|].
      rewrite (Sd ((x - total b) / c_length d)), Q. unfold total. cbn [map lsum].
      replace (1 - (c_length d + lsum (map c_length b) - lsum (map c_length b)) / c_length d) with 0 by (field; lra).
      pose proof (joined_at _ _ _ _ J) as J'. rewrite <- J'. f_equal.
      assert (Y : y = total a + c_length c) by (unfold x in Q; lra). rewrite Y. unfold total. field. lra.
  - destruct XB as [-> |XB].
    + cbn [rev map app]. change (total []) with 0 in *.
      assert (W1 : walk (c_reverse c :: rev (map c_reverse a)) x = c_eval (c_reverse c) (x / c_length c)).
      { destruct (rev (map c_reverse a)) eqn:RA.
        - cbn. unfold local. rewrite reverse_len. destruct (Req_EM_T (c_length c) 0); [lra|reflexivity].
        - rewrite walk_cons by discriminate. rewrite reverse_len.
          destruct (Rle_dec x (c_length c)) as [L|L].
          + unfold local. rewrite reverse_len. destruct (Req_EM_T (c_length c) 0); [lra|reflexivity].
          + exfalso. destruct XA as [-> |XA]; [discriminate|lra]. }
      rewrite W1, (Sc (x / c_length c)). f_equal. unfold x. rewrite TT. field. lra.
    + rewrite walk_app_r; [|apply NNr, Pb|discriminate|right; rewrite total_perm; lra].
      rewrite total_perm.
      assert (W1 : walk (c_reverse c :: rev (map c_reverse a)) (x - total b) = c_eval (c_reverse c) ((x - total b) / c_length c)).
      { destruct (rev (map c_reverse a)) eqn:RA.
        - cbn. unfold local. rewrite reverse_len. destruct (Req_EM_T (c_length c) 0); [lra|reflexivity].
        - rewrite walk_cons by discriminate. rewrite reverse_len.
          destruct (Rle_dec (x - total b) (c_length c)) as [L|L].
          + unfold local. rewrite reverse_len. destruct (Req_EM_T (c_length c) 0); [lra|reflexivity].
          + exfalso. destruct XA as [-> |XA]; [discriminate|lra]. }
      rewrite W1, (Sc ((x - total b) / c_length c)). f_equal. unfold x. rewrite TT. field. lra.
Qed.

(** A joined chain of such curves, reversed, runs through the same points backwards, for every real
    parameter and any nesting. *)
Theorem C39_reverse_points a l s : positive (leaves_of l) -> joined (leaves_of l) ->
  Forall symmetric (leaves_of l) ->
  n_eval (n_reverse (Chain a l)) s = n_eval (Chain a l) (1 - s).
Proof.
  intros P J S. change (n_reverse (Chain a l)) with (Chain a (rev (map n_reverse l))).
  assert (LR : leaves_of (rev (map n_reverse l)) = rev (map c_reverse (leaves_of l))) by apply (leaves_reverse (Chain true l)).
  rewrite !C37_travel; [|apply positive_wf_chain, P|apply positive_wf_chain; rewrite LR; apply positive_rev, P].
  rewrite LR, total_perm. f_equal. rewrite <- (walk_rev (leaves_of l)) by assumption. f_equal. ring.
Qed.
(** Lines and arcs are such curves. *)
Lemma line_arc_symmetric c : fresh c ->
  (exists p q, c_shape c = SLine p q) \/ (exists r a ce m, c_shape c = SArc r a ce m) -> symmetric c.
Proof. intros F H s. apply C30_reverse_line_arc; assumption. Qed.
Example ell_reversed s : n_eval (n_reverse (Chain true ell)) s = n_eval (Chain true ell) (1 - s).
Proof.
  destruct ell_trimmable as [Tr J]. destruct (trimmable_wf _ Tr) as (A & W & Fr & P).
  apply C39_reverse_points; [exact P|exact J|].
  change (leaves_of ell) with [line_curve ORIGIN RIGHT true; line_curve RIGHT (V 1 3 0) true].
  repeat constructor; apply line_arc_symmetric; try apply new_fresh; left; do 2 eexists; reflexivity.
Qed.

(** The ends are swapped for all other curves too (NURBS excepted). *)
Theorem C39_reverse_ends a l : positive (leaves_of l) ->
  Forall (fun c => fresh c /\ (2 <= c_ndiv c)%nat /\ ~ is_nurb c /\ incr (c_ss c)) (leaves_of l) ->
  n_eval (n_reverse (Chain a l)) 0 = n_eval (Chain a l) 1 /\
  n_eval (n_reverse (Chain a l)) 1 = n_eval (Chain a l) 0.
Proof.
  intros P F. change (n_reverse (Chain a l)) with (Chain a (rev (map n_reverse l))).
  assert (LR : leaves_of (rev (map n_reverse l)) = rev (map c_reverse (leaves_of l))) by apply (leaves_reverse (Chain true l)).
  assert (PR : positive (leaves_of (rev (map n_reverse l)))) by (rewrite LR; apply positive_rev, P).
  destruct (C37_ends a l dummy_curve P) as [-> ->].
  destruct (C37_ends a (rev (map n_reverse l)) (c_reverse dummy_curve) PR) as [-> ->]. rewrite LR.
  destruct P as [N _]. split; f_equal.
  - destruct (exists_last N) as (r & z & E). rewrite E in *. rewrite map_app, rev_app_distr, last_last. cbn [rev map app hd].
    apply Forall_app in F. destruct F as [_ F]. inversion F as [|? ? (F1 & F2 & F3 & F4) _]; subst.
    apply C30_swaps_ends; assumption.
  - destruct (leaves_of l) as [|c r]; [contradiction|]. cbn [map rev hd]. rewrite last_last.
    inversion F as [|? ? (F1 & F2 & F3 & F4) _]; subst. apply C30_swaps_ends; assumption.
Qed.
Example C39_reverse_ends_example : n_eval (n_reverse (Chain true ell)) 0 = n_eval (Chain true ell) 1.
Proof.
  destruct (C39_reverse_ends true ell) as [E _]; [apply ell_facts| |exact E].
  change (leaves_of ell) with [line_curve ORIGIN RIGHT true; line_curve RIGHT (V 1 3 0) true].
  assert (G : forall p q, p <> q -> fresh (line_curve p q true) /\ (2 <= c_ndiv (line_curve p q true))%nat /\
    ~ is_nurb (line_curve p q true) /\ incr (c_ss (line_curve p q true))).
  { intros p q H. destruct (line_good p q H) as (F & N & _ & _ & I & _). split; [exact F|]. split; [exact N|].
    split; [intros (a & w & Z); discriminate|exact I]. }
  constructor; [apply G, origin_right|]. constructor; [|constructor]. apply G. intros Z. unfold RIGHT in Z. injection Z as Z. lra.
Qed.

(** Deleting an element keeps the slot; every later use of the chain raises. *)
Lemma list_set_length {A} (l : list A) k x : (k < length l)%nat -> length (list_set l k x) = length l.
Proof. intros H. unfold list_set. rewrite app_length, firstn_length. cbn [length]. rewrite skipn_length. lia. Qed.
Theorem C39_delitem_refuted l i l' : ch_delitem l i = Ok l' ->
  length l' = length l /\ slots_active l' = Err AttributeError.
Proof.
  unfold ch_delitem. destruct (norm_index (length l) i) as [k|] eqn:E; [|discriminate]. injection 1 as <-.
  assert (K : (k < length l)%nat).
  { unfold norm_index in E. destruct ((_ && _)%bool) eqn:Q; [|discriminate]. injection E as <-.
    apply andb_true_iff in Q. lia. }
  split; [apply list_set_length, K|]. unfold list_set. clear E K i.
  revert k. induction l as [|m l IH]; intros [|k]; cbn; try reflexivity.
  destruct m; [|reflexivity]. rewrite IH. reflexivity.
Qed.
Example delitem_example : exists l', ch_delitem [SNode (Prim unit_line)] (-1) = Ok l'.
Proof. eexists. reflexivity. Qed.

(** Filling inactive places: the list keeps its length, active curves are untouched, and an inactive
    curve becomes the segment from its predecessor's end to its successor's start. *)
Lemma list_set_nth {A} (l : list A) k x j d : (k < length l)%nat ->
  nth j (list_set l k x) d = if (j =? k)%nat then x else nth j l d.
Proof.
  intros H. unfold list_set. destruct (Nat.eqb_spec j k) as [->|N].
  - rewrite app_nth2; rewrite firstn_length_le by lia; [|lia]. rewrite Nat.sub_diag. reflexivity.
  - destruct (Nat.lt_ge_cases j k) as [L|L].
    + rewrite app_nth1 by (rewrite firstn_length_le; lia). rewrite <- (firstn_skipn k l) at 2.
      rewrite app_nth1 by (rewrite firstn_length_le; lia). reflexivity.
    + rewrite app_nth2; rewrite firstn_length_le by lia; [|lia].
      replace (j - k)%nat with (S (j - S k)) by lia. cbn [nth].
      rewrite <- (firstn_skipn (S k) l) at 2. rewrite app_nth2; rewrite firstn_length_le by lia; [|lia].
      f_equal.
Qed.
Lemma lerp_at_length l k : (k < length l)%nat -> length (lerp_at l k) = length l.
Proof. intros H. unfold lerp_at. destruct (c_act _); [reflexivity|]. apply list_set_length, H. Qed.
Lemma lerp_at_nth l k j : (k < length l)%nat ->
  nth j (lerp_at l k) dummy_curve =
  if ((j =? k) && negb (c_act (nth k l dummy_curve)))%nat then
    line_curve (c_eval (nth ((k + length l - 1) mod length l) l dummy_curve) 1)
               (c_eval (nth ((k + 1) mod length l) l dummy_curve) 0) false
  else nth j l dummy_curve.
Proof.
  intros H. unfold lerp_at. destruct (c_act (nth k l dummy_curve)); cbn [negb].
  - rewrite andb_false_r. reflexivity.
  - rewrite andb_true_r. apply list_set_nth, H.
Qed.
Lemma lerp_prefix l m : (m <= length l)%nat ->
  let r := fold_left lerp_at (seq 0 m) l in
  length r = length l /\ (forall j, (m <= j)%nat -> nth j r dummy_curve = nth j l dummy_curve) /\
  (forall j, (j < m)%nat -> c_act (nth j l dummy_curve) = true -> nth j r dummy_curve = nth j l dummy_curve) /\
  (forall j, (j < m)%nat -> c_act (nth j l dummy_curve) = false -> c_act (nth j r dummy_curve) = false).
Proof.
  induction m as [|m IH]; intros H; [cbn; repeat split; intros; lia|].
  cbv zeta. rewrite seq_S, fold_left_app. cbn [fold_left Nat.add].
  destruct (IH ltac:(lia)) as (L & A & B & C). set (r := fold_left lerp_at (seq 0 m) l) in *. cbv zeta in *.
  split; [rewrite lerp_at_length by lia; exact L|]. split; [|split].
  - intros j Hj. rewrite lerp_at_nth by lia. replace (j =? m)%nat with false by (symmetry; apply Nat.eqb_neq; lia). apply A. lia.
  - intros j Hj Aj. rewrite lerp_at_nth by lia. destruct (Nat.eqb_spec j m) as [->|N]; cbn [andb].
    + rewrite A by lia. rewrite Aj. reflexivity.
    + apply B; [lia|exact Aj].
  - intros j Hj Aj. rewrite lerp_at_nth by lia. destruct (Nat.eqb_spec j m) as [->|N]; cbn [andb].
    + rewrite A by lia. rewrite Aj. reflexivity.
    + apply C; [lia|exact Aj].
Qed.
Theorem C39_lerp_inactive l k : (k < length l)%nat ->
  length (lerp_inactive l) = length l /\
  (c_act (nth k l dummy_curve) = true -> nth k (lerp_inactive l) dummy_curve = nth k l dummy_curve) /\
  (c_act (nth k l dummy_curve) = false -> c_act (nth k (lerp_inactive l) dummy_curve) = false) /\
  (* between two neighbours inside the list *)
  (c_act (nth k l dummy_curve) = false -> (0 < k)%nat -> (S k < length l)%nat ->
     nth k (lerp_inactive l) dummy_curve =
       line_curve (c_eval (nth (k - 1) (lerp_inactive l) dummy_curve) 1)
                  (c_eval (nth (S k) l dummy_curve) 0) false).
Proof.
  intros K. destruct (lerp_prefix l (length l) (le_n _)) as (L & A & B & C). fold (lerp_inactive l) in *. cbv zeta in *.
  split; [exact L|]. split; [apply B, K|]. split; [apply C, K|].
  intros I K0 K1.
  (* later steps do not change positions [<= k] *)
  assert (ST : forall m j, (m <= length l)%nat -> (j < m)%nat ->
    nth j (fold_left lerp_at (seq 0 m) l) dummy_curve = nth j (fold_left lerp_at (seq 0 (S j)) l) dummy_curve).
  { induction m as [|m IHm]; intros j Hm Hj; [lia|]. destruct (Nat.eq_dec j m) as [->|N]; [reflexivity|].
    rewrite seq_S, fold_left_app. cbn [fold_left Nat.add].
    destruct (lerp_prefix l m ltac:(lia)) as (Lm & _). cbv zeta in Lm.
    rewrite lerp_at_nth by lia. replace (j =? m)%nat with false by (symmetry; apply Nat.eqb_neq; lia). apply IHm; lia. }
  unfold lerp_inactive. rewrite (ST (length l) k), (ST (length l) (k - 1)%nat) by lia.
  replace (S (k - 1)) with k by lia. rewrite (seq_S k 0), fold_left_app. cbn [fold_left Nat.add].
  destruct (lerp_prefix l k ltac:(lia)) as (Lk & Ak & _). cbv zeta in *.
  set (r := fold_left lerp_at (seq 0 k) l) in *.
  rewrite lerp_at_nth by lia. rewrite Nat.eqb_refl, (Ak k) by lia. rewrite I. cbn [negb andb].
  rewrite Lk.
  replace ((k + length l - 1) mod length l)%nat with (k - 1)%nat.
  2:{ replace (k + length l - 1)%nat with (k - 1 + 1 * length l)%nat by lia. rewrite Nat.mod_add by lia.
      symmetry. apply Nat.mod_small. lia. }
  rewrite (Nat.mod_small (k + 1)), Nat.add_1_r, (Ak (S k)) by lia. reflexivity.
Qed.
Example C39_lerp_inactive_example :
  nth 1 (lerp_inactive [unit_line; line_curve UP UP false; line_curve (V 1 3 0) (V 2 3 0) true]) dummy_curve =
  line_curve RIGHT (V 1 3 0) false.
Proof.
  destruct (C39_lerp_inactive [unit_line; line_curve UP UP false; line_curve (V 1 3 0) (V 2 3 0) true] 1) as (_ & _ & _ & E);
    [cbn; lia|].
  destruct (C39_lerp_inactive [unit_line; line_curve UP UP false; line_curve (V 1 3 0) (V 2 3 0) true] 0) as (_ & E0 & _);
    [cbn; lia|].
  rewrite E by (try reflexivity; cbn; lia). cbn [Nat.sub]. rewrite E0 by reflexivity.
  cbn [nth]. f_equal; [exact (proj2 (C32_ends ORIGIN RIGHT))|exact (proj1 (C32_ends (V 1 3 0) (V 2 3 0)))].
Qed.
