(** Pieces along which a quantity grows strictly, whatever way their parameter runs, and nested chains of plain curves. *)
From Coq Require Import Nsatz Reals List ZArith Bool Lra Lia Psatz.
From Verif Require Import Num Vec Coords Interp Curve CurveLem CurveProps Chain ChainLem ChainProps Gen NurbsProps Profile ProfileProps
  Convert ConvertProps NurbConvProps FilletProps RisingLem Part PartProps.
Import ListNotations.
Open Scope R_scope.

Record climbing (mu : vec -> R) (c : curve) : Prop := {
  cl_fresh : fresh c; cl_ndiv : (2 <= c_ndiv c)%nat; cl_act : c_act c = true; cl_pos : 0 < c_length c;
  cl_up : forall s u, 0 <= s -> s < u -> u <= 1 -> mu (c_eval c s) < mu (c_eval c u) }.

Lemma rising_climbing mu c : rising mu c -> climbing mu c.
Proof.
  intros H. split; [apply (ri_fresh _ _ H)|apply (ri_ndiv _ _ H)|apply (ri_act _ _ H)|apply (rising_table mu c H)|].
  intros s u. apply rising_eval, H.
Qed.

(** ** Curves whose parameter runs downwards *)
Lemma step_back a b i n : (S i <= n)%nat -> (0 < n)%nat -> b < a ->
  let x := a + (b - a) * INR i / INR n in let y := a + (b - a) * INR (S i) / INR n in b <= y /\ y < x /\ x <= a /\ x - y = (a - b) / INR n.
Proof.
  intros Hi Hn H x y. destruct (step_frac (- a) (- b) i n Hi Hn ltac:(lra)) as (A & B & C). cbv zeta in A, B, C.
  assert (N : 0 < INR n) by (apply lt_0_INR; lia).
  assert (X : x = - (- a + (- b - - a) * INR i / INR n)) by (unfold x, Rdiv; ring).
  assert (Y : y = - (- a + (- b - - a) * INR (S i) / INR n)) by (unfold y, Rdiv; ring).
  repeat split; try lra. unfold x, y. rewrite S_INR. field. lra.
Qed.

Lemma back_table c f : fresh c -> (2 <= c_ndiv c)%nat -> c_act c = true -> c_shape c = SGen f -> c_t1 c < c_t0 c ->
  (forall t t', c_t1 c <= t' -> t' < t -> t <= c_t0 c -> t - t' = (c_t0 c - c_t1 c) / INR (c_ndiv c - 1) -> f t <> f t') ->
  incr (c_ss c) /\ 0 < c_length c.
Proof.
  intros F N A SH LT D. unfold fresh in F.
  assert (EC : c = new_curve (SGen f) true (c_t0 c) (c_t1 c) (c_ndiv c)).
  { rewrite <- F at 1. unfold new_curve. apply update_ext; cbn; auto. }
  assert (ST : forall i, (S i < c_ndiv c)%nat ->
    f (c_t0 c + (c_t1 c - c_t0 c) * INR i / INR (c_ndiv c - 1)) <> f (c_t0 c + (c_t1 c - c_t0 c) * INR (S i) / INR (c_ndiv c - 1))).
  { intros i Hi. destruct (step_back (c_t0 c) (c_t1 c) i (c_ndiv c - 1)) as (X & Y & Z & W); try lia; [exact LT|]. apply D; assumption. }
  split.
  - rewrite EC. apply C28_distinct_samples_strict; [exact N|exact ST].
  - destruct (C28_table_is_length_share f true (c_t0 c) (c_t1 c) (c_ndiv c) 0 N) as (L & _); [lia|].
    rewrite <- EC in L. rewrite F in L. rewrite L. clear L EC.
    assert (ST0 : forall i, (S i < c_ndiv c)%nat -> 0 < chord_sum f (c_t0 c) (c_t1 c) (c_ndiv c) (S i)).
    { induction i as [|i IH]; intros Hi; rewrite chord_sum_S.
      - specialize (ST 0%nat Hi). unfold chord_sum at 1. cbn [seq map fold_right]. rewrite Rplus_0_l. apply norm_pos.
        intros E. apply ST. symmetry. apply vsub_eq0, E.
      - pose proof (IH ltac:(lia)). match goal with |- 0 < _ + norm ?v => pose proof (norm_nonneg v) end. lra. }
    destruct (c_ndiv c) as [|[|k]]; try lia. replace (S (S k) - 1)%nat with (S k) by lia. apply ST0. lia.
Qed.

Lemma back_dom c u : fresh c -> (2 <= c_ndiv c)%nat -> incr (c_ss c) -> c_t1 c < c_t0 c -> 0 <= u <= 1 ->
  c_t1 c <= s2t c u <= c_t0 c /\ (0 < u -> s2t c u < c_t0 c) /\ (u < 1 -> c_t1 c < s2t c u).
Proof.
  intros F N I LT U. destruct (C28_ends c F N I) as (E0 & E1). pose proof (C28_strictly_monotone_reversed c F N I LT) as M.
  assert (A : 0 < u -> s2t c u < c_t0 c) by (intros; rewrite <- E0; apply M; lra).
  assert (B : u < 1 -> c_t1 c < s2t c u) by (intros; rewrite <- E1; apply M; lra).
  split; [|split; assumption]. split.
  - destruct (Req_dec u 1) as [->|X]; [lra|]. left. apply B. lra.
  - destruct (Req_dec u 0) as [->|X]; [lra|]. left. apply A. lra.
Qed.

Lemma back_climbing mu c f : fresh c -> (2 <= c_ndiv c)%nat -> c_act c = true -> c_shape c = SGen f -> c_t1 c < c_t0 c ->
  (forall t t', c_t1 c <= t' -> t' < t -> t <= c_t0 c -> mu (f t) < mu (f t')) -> climbing mu c.
Proof.
  intros F N A SH LT UP. destruct (back_table c f F N A SH LT) as (I & L).
  { intros t t' X Y Z _ E. pose proof (UP t t' X Y Z) as K. rewrite E in K. lra. }
  split; try assumption. intros s u S SU U. unfold c_eval, c_fun. rewrite SH, shape_fun_gen. apply UP.
  - apply back_dom; try assumption. lra.
  - apply (C28_strictly_monotone_reversed c F N I LT); assumption.
  - apply back_dom; try assumption. lra.
Qed.

(** ** Chains of climbing pieces *)
Section Climb.
  Variable mu : vec -> R.

  Lemma climb_positive cs : List.Forall (climbing mu) cs -> List.Forall (fun c => 0 < c_length c) cs.
  Proof. apply Forall_impl. intros c H. apply (cl_pos _ _ H). Qed.

  (** No point lies lower than the start. *)
  Lemma climb_low cs d : List.Forall (climbing mu) cs -> joined cs -> forall c u, In c cs -> 0 <= u <= 1 ->
    mu (c_eval (hd d cs) 0) <= mu (c_eval c u).
  Proof.
    induction cs as [|a r IH]; intros F J c u IC U; [destruct IC|]. inversion F as [|? ? HA HR]; subst. cbn [hd].
    assert (LE : forall v, 0 <= v <= 1 -> mu (c_eval a 0) <= mu (c_eval a v)).
    { intros v V. destruct (Req_dec v 0) as [->|X]; [lra|]. left. apply (cl_up _ _ HA); lra. }
    destruct IC as [<-|IC]; [apply LE, U|]. destruct r as [|b r]; [destruct IC|]. destruct J as [J1 J2].
    specialize (IH HR J2 c u IC U). cbn [hd] in IH. rewrite <- J1 in IH. specialize (LE 1 ltac:(lra)). lra.
  Qed.

  Lemma walk_climbing cs : List.Forall (climbing mu) cs -> joined cs -> cs <> [] -> forall x y, 0 <= x -> x < y -> y <= total cs ->
    mu (walk cs x) < mu (walk cs y).
  Proof.
    induction cs as [|c r IH]; intros F J N x y X XY Y; [contradiction|]. inversion F as [|? ? HC HF]; subst.
    assert (L : 0 < c_length c) by apply (cl_pos _ _ HC).
    destruct r as [|d r].
    - cbn [walk]. rewrite !local_in by exact L.
      assert (TT : total [c] = c_length c) by (unfold total; cbn; ring).
      assert (B0 : 0 <= x / c_length c <= 1) by (apply div_01; [exact L|]; lra).
      assert (B1 : 0 <= y / c_length c <= 1) by (apply div_01; [exact L|]; lra).
      apply (cl_up _ _ HC); [lra|apply div_lt; assumption|lra].
    - assert (TT : total (c :: d :: r) = c_length c + total (d :: r)) by (unfold total; cbn; ring).
      rewrite (walk_cons c (d :: r) x), (walk_cons c (d :: r) y) by discriminate. destruct J as [J1 J2].
      destruct (Rle_dec y (c_length c)) as [LE|GT].
      + destruct (Rle_dec x (c_length c)) as [LX|GX]; [|lra]. rewrite !local_in by exact L.
        assert (B0 : 0 <= x / c_length c <= 1) by (apply div_01; [exact L|]; lra).
        assert (B1 : 0 <= y / c_length c <= 1) by (apply div_01; [exact L|]; lra).
        apply (cl_up _ _ HC); [lra|apply div_lt; assumption|lra].
      + destruct (Rle_dec x (c_length c)) as [LX|GX].
        * apply Rle_lt_trans with (mu (walk (d :: r) 0)).
          -- inversion HF; subst. rewrite walk_start by (apply (cl_pos mu d); assumption). rewrite <- J1, local_in by exact L.
             assert (B0 : 0 <= x / c_length c <= 1) by (apply div_01; [exact L|]; lra).
             destruct (Req_dec (x / c_length c) 1) as [->|NO]; [lra|]. left. apply (cl_up _ _ HC); [lra|lra|lra].
          -- apply (IH HF J2); [discriminate|lra|lra|lra].
        * apply (IH HF J2); [discriminate|lra|lra|lra].
  Qed.

  Record climbing_node (t : node) : Prop := {
    cn_act : n_active t = true; cn_leaves : List.Forall (climbing mu) (leaves t); cn_joined : joined (leaves t) }.

  Lemma cn_point t s u : climbing_node t -> 0 <= s -> s < u -> u <= 1 -> mu (n_point t s) < mu (n_point t u).
  Proof.
    intros H A B C. pose proof (climb_positive _ (cn_leaves _ H)) as P. pose proof (active_leaves t) as AL.
    assert (NE : leaves t <> []) by apply active_leaves, (cn_act _ H).
    pose proof (positive_total (leaves t) (conj NE P)) as TP.
    rewrite !(leaves_walk t (cn_act _ H) P).
    apply walk_climbing; [apply (cn_leaves _ H)|apply (cn_joined _ H)|exact NE| | |].
    - apply Rmult_le_pos; lra.
    - apply Rmult_lt_compat_r; assumption.
    - rewrite <- (Rmult_1_l (total (leaves t))) at 2. apply Rmult_le_compat_r; lra.
  Qed.
  Lemma cn_flank_ok t : climbing_node t -> flank_ok t.
  Proof.
    intros H. split.
    - apply (cn_act _ H).
    - apply climb_positive, (cn_leaves _ H).
    - eapply Forall_impl; [|apply (cn_leaves _ H)]. intros c HC. apply (cl_ndiv _ _ HC).
    - apply (cn_joined _ H).
    - intros i Hi E. destruct (step_frac 0 1 i 20) as (A & B & C); try lia; try lra.
      cbv zeta in A, B, C. rewrite !Rplus_0_l, Rminus_0_r, !Rmult_1_l in *.
      replace (INR 20) with 20 in * by (cbn; lra).
      pose proof (cn_point t _ _ H A B C) as L. rewrite E in L. lra.
  Qed.
End Climb.

(** A point of a chain is a point of one of its pieces. *)
Lemma point_leaf t s : n_active t = true -> List.Forall (fun c => 0 < c_length c) (leaves t) -> 0 <= s <= 1 ->
  exists c u, In c (leaves t) /\ 0 <= u <= 1 /\ n_point t s = c_eval c u.
Proof.
  intros A P S. rewrite (leaves_walk t A P). assert (NE : leaves t <> []) by apply active_leaves, A.
  assert (TP : 0 < total (leaves t)) by (apply positive_total; split; assumption).
  assert (B : 0 <= s * total (leaves t) <= total (leaves t)).
  { split; [apply Rmult_le_pos; lra|]. rewrite <- (Rmult_1_l (total (leaves t))) at 2. apply Rmult_le_compat_r; lra. }
  destruct (walk_split (leaves t) (s * total (leaves t)) (conj NE P)) as (a & c & b & E & LO & HI & ->).
  exists c, ((s * total (leaves t) - total a) / c_length c). split; [rewrite E; apply in_or_app; right; left; reflexivity|]. split; [|reflexivity].
  rewrite E in P, B. apply Forall_app in P. destruct P as [P0 P]. inversion P as [|? ? PC PB]; subst.
  rewrite E in HI, LO |- *. set (y := s * total (a ++ c :: b)) in *.
  assert (TE : total (a ++ c :: b) = total a + c_length c + total b) by (rewrite total_app; unfold total; cbn; ring).
  apply div_01; [exact PC|]. split.
  - destruct LO as [->|LO]; [unfold total; cbn; lra|lra].
  - destruct HI as [->|HI]; [|lra]. assert (total [] = 0) by reflexivity. lra.
Qed.

(** ** Nested chains of plain curves *)
Inductive plain_tree : node -> Prop :=
| pt_prim c : ~ is_nurb c -> plain_tree (Prim c)
| pt_chain l : List.Forall plain_tree l -> plain_tree (Chain true l).

Lemma plain_tree_flank t : plain_tree t -> plain_flank t.
Proof.
  induction t as [c|a l IH] using node_rect'; intros H; inversion H as [? NC|? HL]; subst.
  - split; [cbn; destruct (c_act c); reflexivity|constructor; [exact NC|constructor]].
  - unfold plain_flank. change (leaves (Chain true l)) with (leaves_of l). change (get_curves (Chain true l)) with (flat_map get_curves l).
    clear H. induction l as [|x l IHl]; [split; [reflexivity|constructor]|].
    inversion HL as [|? ? HX HR]; subst. rewrite List.Forall_forall in IH.
    destruct (IH x (or_introl eq_refl) HX) as (E & F). destruct IHl as (E' & F').
    { rewrite List.Forall_forall. intros y I. apply IH. right. exact I. }
    { exact HR. }
    split.
    + change (leaves_of (x :: l)) with (leaves x ++ leaves_of l). cbn [flat_map]. rewrite filter_app, E, E'. reflexivity.
    + cbn [flat_map]. apply Forall_app. split; assumption.
Qed.

Lemma plain_update t : plain_tree t -> plain_tree (n_update t).
Proof.
  induction t as [c|a l IH] using node_rect'; intros H; inversion H as [? NC|? HL]; subst; cbn [n_update].
  - constructor. apply nurb_update, NC.
  - constructor. rewrite List.Forall_forall in *. intros y I. apply in_map_iff in I. destruct I as (x & <- & I).
    destruct (n_active x); [apply IH; [exact I|apply HL, I]|apply HL, I].
Qed.
Lemma plain_refresh t : plain_tree t -> plain_tree (refresh t).
Proof. intros H. unfold refresh. destruct (n_active t); [apply plain_update, H|exact H]. Qed.
Lemma plain_refresh_list l : List.Forall plain_tree l -> List.Forall plain_tree (map refresh l).
Proof. intros H. rewrite List.Forall_forall in *. intros y I. apply in_map_iff in I. destruct I as (x & <- & I). apply plain_refresh, H, I. Qed.

Lemma plain_end t : plain_tree t -> forall s m, n_set_end false t s = Ok m -> plain_tree m.
Proof.
  induction t as [c|a l IH] using node_rect'; intros H s m E; inversion H as [? NC|? HL]; subst.
  - cbn in E. injection E as <-. constructor. apply nurb_domain, NC.
  - cbn [n_set_end] in E. destruct (get_s_index _ _) as [[i u]|]; [|discriminate]. cbn [bind fst snd] in E.
    destruct (nth i (map (n_set_end false) l) _ u) as [m'|] eqn:N; [|discriminate]. cbn [bind] in E. injection E as <-.
    constructor. apply plain_refresh_list. apply Forall_app. rewrite List.Forall_forall in HL, IH. split.
    + rewrite List.Forall_forall. intros x I. apply HL. rewrite <- (firstn_skipn i l). apply in_or_app. left. exact I.
    + constructor; [|constructor]. destruct (Nat.lt_ge_cases i (length l)) as [L|L].
      * rewrite (nth_indep _ _ (n_set_end false (Prim dummy_curve))) in N by (rewrite map_length; exact L). rewrite map_nth in N.
        assert (I : In (nth i l (Prim dummy_curve)) l) by (apply nth_In, L). exact (IH _ I (HL _ I) u m' N).
      * rewrite nth_overflow in N by (rewrite map_length; exact L). discriminate.
Qed.
Lemma plain_start t : plain_tree t -> forall s m, n_set_start false t s = Ok m -> plain_tree m.
Proof.
  induction t as [c|a l IH] using node_rect'; intros H s m E; inversion H as [? NC|? HL]; subst.
  - cbn in E. injection E as <-. constructor. apply nurb_domain, NC.
  - cbn [n_set_start] in E. destruct (get_s_index _ _) as [[i u]|]; [|discriminate]. cbn [bind fst snd] in E.
    destruct (nth i (map (n_set_start false) l) _ u) as [m'|] eqn:N; [|discriminate]. cbn [bind app] in E. injection E as <-.
    constructor. change (refresh m' :: map refresh _) with (map refresh (m' :: skipn (S i) l)). apply plain_refresh_list. rewrite List.Forall_forall in HL, IH. constructor.
    + destruct (Nat.lt_ge_cases i (length l)) as [L|L].
      * rewrite (nth_indep _ _ (n_set_start false (Prim dummy_curve))) in N by (rewrite map_length; exact L). rewrite map_nth in N.
        assert (I : In (nth i l (Prim dummy_curve)) l) by (apply nth_In, L). exact (IH _ I (HL _ I) u m' N).
      * rewrite nth_overflow in N by (rewrite map_length; exact L). discriminate.
    + rewrite List.Forall_forall. intros x I. apply HL. rewrite <- (firstn_skipn (S i) l). apply in_or_app. right. exact I.
Qed.
Lemma flat_tree t : flat_tooth t -> plain_tree t.
Proof.
  intros (cs & -> & F). constructor. rewrite List.Forall_forall in *. intros y I. apply in_map_iff in I. destruct I as (c & <- & I). constructor. apply F, I.
Qed.
