(** C127: NURBSCurve.from_curve_chain. *)
From Coq Require Import Reals List Bool Lra.
From Verif Require Import Num Vec Bezier Interp Curve CurveLem CurveProps Chain ChainLem ChainProps ProfileProps.
From Verif Require Import FromChain.
Import ListNotations.
Open Scope R_scope.

(** A chain without switched-off inner chains: single curves may be inactive, inner chains are active or empty of
    active curves. *)
Fixpoint open_tree (n : node) : Prop :=
  match n with
  | Prim _ => True
  | Chain a l => (a = true \/ List.Forall (fun c => c_act c = false) (flat_map get_curves l)) /\
      (fix all (l : list node) : Prop := match l with [] => True | m :: r => open_tree m /\ all r end) l
  end.
Definition open_list (l : list node) : Prop := List.Forall open_tree l.
Lemma open_chain a l : open_tree (Chain a l) <->
  (a = true \/ List.Forall (fun c => c_act c = false) (flat_map get_curves l)) /\ open_list l.
Proof.
  cbn. split; intros [H K]; (split; [exact H|]); unfold open_list in *.
  - clear H. induction l as [|m l IH]; constructor; [apply K | apply IH, K].
  - clear H. induction K; split; auto.
Qed.

Lemma filter_none cs : List.Forall (fun c => c_act c = false) cs -> filter c_act cs = [].
Proof. induction 1 as [|c r H HF IH]; cbn; [reflexivity|]. rewrite H. exact IH. Qed.

(** In such a chain the active members that get_curves returns are the ones that are travelled. *)
Lemma open_leaves n : open_tree n -> leaves n = filter c_act (get_curves n).
Proof.
  induction n as [c|a l IH] using node_rect'; intros O.
  - cbn. destruct (c_act c); reflexivity.
  - apply open_chain in O. destruct O as [A O].
    assert (L : flat_map leaves l = filter c_act (flat_map get_curves l)).
    { clear A. revert O. induction IH as [|m l Hm HF IHl]; intros O; [reflexivity|].
      inversion O; subst. cbn. rewrite filter_app, <- Hm, <- IHl by assumption. reflexivity. }
    cbn. destruct A as [->|A]; [exact L|]. destruct a; [exact L|]. rewrite filter_none by exact A. reflexivity.
Qed.

Lemma prim_leaves cs : leaves_of (map Prim cs) = filter c_act cs.
Proof. induction cs as [|c r IH]; cbn; [reflexivity|]. destruct (c_act c); cbn; [f_equal|]; exact IH. Qed.

(** It fails exactly when some member is not a NurbCurve, active or not. *)
Theorem C127_error : forall a l,
  from_curve_chain (Chain a l) = Err ValueError <-> List.Exists (fun c => ~ is_nurb c) (get_curves (Chain a l)).
Proof.
  intros a l. unfold from_curve_chain.
  assert (K : forall c, is_nurb_curve c = true <-> is_nurb c).
  { intros c. unfold is_nurb_curve, is_nurb. destruct (c_shape c) eqn:E; split; intros H; try discriminate; eauto;
      destruct H as (p & w & H); discriminate. }
  destruct (forallb is_nurb_curve (get_curves (Chain a l))) eqn:E.
  - split; [discriminate|]. intros H. apply Exists_exists in H. destruct H as (c & I & N).
    rewrite forallb_forall in E. exfalso. apply N, K, E, I.
  - split; [intros _ | reflexivity]. apply Exists_exists.
    assert (X : existsb (fun c => negb (is_nurb_curve c)) (get_curves (Chain a l)) = true).
    { clear - E. induction (get_curves (Chain a l)) as [|c r IH]; cbn in *; [discriminate|].
      destruct (is_nurb_curve c); cbn in *; [apply IH, E | reflexivity]. }
    apply existsb_exists in X. destruct X as (c & I & N). exists c. split; [exact I|].
    intros Q. apply K in Q. rewrite Q in N. discriminate.
Qed.

(** The result has the members in order, one level deep, and the points of the chain at every parameter. *)
Theorem C127_points : forall a l, wf (Chain a l) -> open_list l -> List.Forall fresh (leaves_of l) ->
  List.Forall is_nurb (get_curves (Chain a l)) ->
  exists b cs, from_curve_chain (Chain a l) = Ok (Chain b (map Prim cs)) /\ cs = get_curves (Chain a l) /\
  b = n_active (Chain a l) /\
  n_active (Chain b (map Prim cs)) = n_active (Chain a l) /\
  n_length (Chain b (map Prim cs)) = n_length (Chain a l) /\
  forall s, n_eval (Chain b (map Prim cs)) s = n_eval (Chain a l) s.
Proof.
  intros a l W O F N. set (cs := get_curves (Chain a l)).
  assert (LV : leaves_of (map Prim cs) = leaves_of l).
  { rewrite prim_leaves. unfold cs. change (get_curves (Chain a l)) with (get_curves (Chain true l)).
    rewrite <- (open_leaves (Chain true l)); [reflexivity|]. apply open_chain. auto. }
  assert (FB : forallb is_nurb_curve cs = true).
  { apply forallb_forall. intros c I. rewrite Forall_forall in N. destruct (N c I) as (p & w & E).
    unfold is_nurb_curve. rewrite E. reflexivity. }
  pose proof W as W0. apply wf_chain in W0. destruct W0 as [TP WF].
  assert (W' : forall b, wf (Chain b (map Prim cs))).
  { intros b. apply wf_chain. rewrite LV. split; [exact TP|].
    pose proof (leaves_of_nonneg l WF) as NN. rewrite <- LV, prim_leaves in NN. clear - NN.
    induction cs as [|c r IH]; constructor.
    - cbn. intros A. cbn in NN. rewrite A in NN. inversion NN; assumption.
    - apply IH. cbn in NN. destruct (c_act c); [inversion NN; assumption | exact NN]. }
  exists (n_active (Chain a l)), cs. split; [|split; [reflexivity|split; [reflexivity|split; [|split]]]].
  - unfold from_curve_chain. fold cs. rewrite FB. unfold new_chain. cbn [n_update]. do 2 f_equal.
    change (map refresh (map Prim cs) = map Prim cs). apply refresh_list. rewrite LV. exact F.
  - assert (A1 : n_active (Chain true (map Prim cs)) = true).
    { apply active_leaves. change (leaves_of (map Prim cs) <> []). rewrite LV. intros Q. rewrite Q in TP.
      unfold total in TP. cbn in TP. lra. }
    destruct (n_active (Chain a l)); [exact A1 | reflexivity].
  - transitivity (total (leaves_of (map Prim cs))); [apply length_array_leaves|]. rewrite LV. symmetry. apply length_array_leaves.
  - intros s. rewrite !C37_travel by auto. rewrite LV. reflexivity.
Qed.

(** ** Straight pieces, for the examples *)
Definition piece (p q : vec) (act : bool) : curve := nurb_curve [p; q] [1; 1] act.
Lemma piece_fun p q t : nurbezier t [p; q] [1; 1] = vadd p (smul t (vsub q p)).
Proof.
  destruct p, q. unfold nurbezier, wpoints, bezierdc. cbn.
  unfold smul, vadd, vsub. cbn. f_equal; (field; lra).
Qed.
Lemma NDIV_ge : (2 <= NDIV)%nat.
Proof. unfold NDIV. repeat constructor. Qed.
Lemma piece_length p q : p <> q -> 0 < c_length (piece p q true).
Proof.
  intros NE.
  change (0 < c_length (new_curve (SGen (fun t => nurbezier t [p; q] [1; 1])) true 0 1 NDIV)).
  apply sampled_length_pos; [apply NDIV_ge|]. cbv beta. rewrite !piece_fun, !linspace_nth by (pose proof NDIV_ge; auto with arith).
  intros E. apply NE. unfold NDIV in E. cbn in E. destruct p as [a b c], q as [d e f]. cbn in E. injection E as E1 E2 E3.
  f_equal; lra.
Qed.
Lemma piece_start p q : c_eval (piece p q true) 0 = p.
Proof.
  unfold piece. rewrite fresh_start; [|apply new_fresh|apply NDIV_ge].
  change (nurbezier 0 [p; q] [1; 1] = p). rewrite piece_fun. destruct p, q. unfold vadd, smul, vsub. cbn. f_equal; ring.
Qed.

Definition ex_chain : list node :=
  [Prim (piece ORIGIN RIGHT true); Chain true [Prim (piece RIGHT UP true); Prim (piece UP UP false)]].
Definition ex_off : list node :=
  [Chain false [Prim (piece ORIGIN RIGHT true)]; Prim (piece UP RIGHT true)].

(** Not so when an inner chain is switched off: its curves come back. *)
Theorem C127_points_refuted : exists l n p, List.Forall is_nurb (get_curves (Chain true l)) /\
  List.Forall fresh (get_curves (Chain true l)) /\ from_curve_chain (Chain true l) = Ok n /\
  n_eval (Chain true l) 0 = Ok p /\ n_eval n 0 = Ok ORIGIN /\ p <> ORIGIN.
Proof.
  assert (N1 : ORIGIN <> RIGHT) by (intros E; apply (f_equal vx) in E; cbn in E; lra).
  assert (N2 : UP <> RIGHT) by (intros E; apply (f_equal vx) in E; cbn in E; lra).
  exists ex_off, (Chain true (map Prim [piece ORIGIN RIGHT true; piece UP RIGHT true])), UP.
  split; [|split; [|split; [|split; [|split]]]].
  - cbn [get_curves ex_off ex_chain flat_map app]. repeat constructor; eexists; eexists; reflexivity.
  - cbn [get_curves ex_off flat_map app]. repeat constructor; apply new_fresh.
  - change (Ok (Chain true (map refresh (map Prim [piece ORIGIN RIGHT true; piece UP RIGHT true]))) =
      Ok (Chain true (map Prim [piece ORIGIN RIGHT true; piece UP RIGHT true]))). rewrite refresh_list; [reflexivity|].
    cbn [leaves_of map flat_map leaves app piece]. repeat constructor; apply new_fresh.
  - destruct (C37_ends true ex_off (piece UP RIGHT true)) as [E _].
    + split; [discriminate|]. cbn [leaves_of ex_off flat_map leaves app piece]. repeat constructor. apply piece_length, N2.
    + rewrite E. f_equal. apply piece_start.
  - destruct (C37_ends true (map Prim [piece ORIGIN RIGHT true; piece UP RIGHT true]) (piece UP RIGHT true)) as [E _].
    + split; [discriminate|]. cbn [leaves_of map flat_map leaves app piece]. repeat constructor; apply piece_length; assumption.
    + rewrite E. f_equal. apply piece_start.
  - intros E. apply (f_equal vy) in E. cbn in E. lra.
Qed.

Example C127_error_example : List.Exists (fun c => ~ is_nurb c)
  (get_curves (Chain true [Prim (piece ORIGIN RIGHT true); Prim (line_curve RIGHT UP false)])).
Proof. cbn. right. left. intros (p & w & E). discriminate. Qed.
Example C127_points_example : wf (Chain true ex_chain) /\ open_list ex_chain /\ List.Forall fresh (leaves_of ex_chain) /\
  List.Forall is_nurb (get_curves (Chain true ex_chain)) /\ length (get_curves (Chain true ex_chain)) = 3%nat.
Proof.
  assert (N1 : ORIGIN <> RIGHT) by (intros E; apply (f_equal vx) in E; cbn in E; lra).
  assert (N2 : RIGHT <> UP) by (intros E; apply (f_equal vx) in E; cbn in E; lra).
  split; [|split; [|split; [|split]]].
  - apply positive_wf_chain. split; [discriminate|]. cbn [leaves_of ex_chain flat_map leaves app piece].
    repeat constructor; apply piece_length; assumption.
  - unfold open_list, ex_chain. repeat constructor.
  - cbn [leaves_of ex_chain flat_map leaves app piece]. repeat constructor; apply new_fresh.
  - cbn [get_curves ex_off ex_chain flat_map app]. repeat constructor; eexists; eexists; reflexivity.
  - reflexivity.
Qed.
