(** Curves and chains along which a quantity (for a flank: the distance from the axis) grows strictly. *)
From Coq Require Import Reals List ZArith Lra Lia Psatz.
From Verif Require Import Num Vec Coords Interp Curve CurveLem CurveProps Chain ChainLem ChainProps Profile ProfileProps
  FilletProps.
Import ListNotations.
Open Scope R_scope.

Record rising (mu : vec -> R) (c : curve) : Prop := {
  ri_fresh : fresh c;
  ri_ndiv : (2 <= c_ndiv c)%nat;
  ri_act : c_act c = true;
  ri_kind : (exists f, c_shape c = SGen f) \/ (exists p q, c_shape c = SLine p q);
  ri_dom : c_t0 c < c_t1 c;
  ri_up : forall t t', c_t0 c <= t -> t < t' -> t' <= c_t1 c -> mu (c_fun c t) < mu (c_fun c t') }.

Lemma step_frac a b i n : (S i <= n)%nat -> (0 < n)%nat -> a < b ->
  let x := a + (b - a) * INR i / INR n in let y := a + (b - a) * INR (S i) / INR n in a <= x /\ x < y /\ y <= b.
Proof.
  intros Hi Hn H x y. assert (N : 0 < INR n) by (apply lt_0_INR; lia).
  assert (0 <= INR i) by apply pos_INR. assert (U : INR (S i) <= INR n) by (apply le_INR; lia).
  assert (I : 0 < / INR n) by (apply Rinv_0_lt_compat, N).
  assert (E : INR n * / INR n = 1) by (field; lra).
  rewrite S_INR in U. unfold x, y, Rdiv. rewrite S_INR.
  assert (P : 0 < (b - a) * / INR n) by (apply Rmult_lt_0_compat; lra).
  assert (A1 : 0 <= INR i * ((b - a) * / INR n)) by (apply Rmult_le_pos; lra).
  assert (A2 : (INR i + 1) * ((b - a) * / INR n) <= INR n * ((b - a) * / INR n)) by (apply Rmult_le_compat_r; lra).
  assert (A3 : INR n * ((b - a) * / INR n) = b - a) by (rewrite (Rmult_comm (b - a)), <- Rmult_assoc, E; ring).
  repeat split; lra.
Qed.

Lemma leaves_walk t : n_active t = true -> List.Forall (fun c => 0 < c_length c) (leaves t) -> forall s,
  n_point t s = walk (leaves t) (s * total (leaves t)).
Proof.
  intros A P s. pose proof (leaves_wf t A P s) as E. destruct t as [c|a l].
  - unfold n_point. cbn [n_eval]. cbn in A, P. cbn [leaves]. rewrite A in *. inversion P; subst.
    cbn [walk]. unfold local. destruct (Req_EM_T _ _); [lra|]. f_equal. unfold total. cbn. field. assumption.
  - rewrite C37_travel in E by (apply positive_wf; assumption). apply Ok_inj in E. rewrite <- E.
    cbn in A. destruct a; [reflexivity|discriminate].
Qed.

Section Rising.
  Variable mu : vec -> R.

  Lemma rising_neq c t t' : rising mu c -> c_t0 c <= t -> t < t' -> t' <= c_t1 c -> c_fun c t <> c_fun c t'.
  Proof. intros H A B C E. pose proof (ri_up _ _ H t t' A B C) as L. rewrite E in L. lra. Qed.

  Lemma rising_table c : rising mu c -> incr (c_ss c) /\ 0 < c_length c.
  Proof.
    intros H. pose proof (ri_fresh _ _ H) as F. unfold fresh in F. destruct (ri_kind _ _ H) as [(f & SH)|(p & q & SH)].
    - assert (EC : c = new_curve (SGen f) true (c_t0 c) (c_t1 c) (c_ndiv c)).
      { rewrite <- F at 1. unfold new_curve. apply update_ext; cbn; auto. apply (ri_act _ _ H). }
      assert (ST : forall i, (S i < c_ndiv c)%nat ->
        f (c_t0 c + (c_t1 c - c_t0 c) * INR i / INR (c_ndiv c - 1)) <> f (c_t0 c + (c_t1 c - c_t0 c) * INR (S i) / INR (c_ndiv c - 1))).
      { intros i Hi. pose proof (ri_ndiv _ _ H). destruct (step_frac (c_t0 c) (c_t1 c) i (c_ndiv c - 1)) as (A & B & C); try lia.
        - apply (ri_dom _ _ H).
        - pose proof (rising_neq c _ _ H A B C) as N. unfold c_fun in N. rewrite SH, shape_fun_gen in N. exact N. }
      split.
      + rewrite EC. apply C28_distinct_samples_strict; [apply (ri_ndiv _ _ H)|exact ST].
      + destruct (C28_table_is_length_share f true (c_t0 c) (c_t1 c) (c_ndiv c) 0 (ri_ndiv _ _ H)) as (L & _).
        { pose proof (ri_ndiv _ _ H). lia. }
        rewrite <- EC in L. rewrite F in L. rewrite L. clear L EC. pose proof (ri_ndiv _ _ H) as N.
        assert (ST0 : forall i, (S i < c_ndiv c)%nat -> 0 < chord_sum f (c_t0 c) (c_t1 c) (c_ndiv c) (S i)).
        { induction i as [|i IH]; intros Hi; rewrite chord_sum_S.
          - specialize (ST 0%nat Hi). unfold chord_sum at 1. cbn [seq map fold_right]. rewrite Rplus_0_l. apply norm_pos.
            intros E. apply ST. symmetry. apply vsub_eq0, E.
          - pose proof (IH ltac:(lia)). match goal with |- 0 < _ + norm ?v => pose proof (norm_nonneg v) end. lra. }
        destruct (c_ndiv c) as [|[|n]]; try lia. replace (S (S n) - 1)%nat with (S n) by lia. apply ST0. lia.
    - destruct (fresh_line c p q F SH) as (_ & SS & LE). split.
      + rewrite SS. cbn. split; [lra|exact I].
      + rewrite LE. pose proof (ri_dom _ _ H) as D. apply Rmult_lt_0_compat; [|apply Rabs_pos_lt; lra].
        apply norm_pos. intros E. apply vsub_eq0 in E. subst q.
        apply (rising_neq c (c_t0 c) (c_t1 c) H); try lra. unfold c_fun. rewrite SH. cbn [shape_fun]. clear. apply vec_eq; vec_simpl; ring.
  Qed.

  Lemma rising_dom c u : rising mu c -> 0 <= u <= 1 -> c_t0 c <= s2t c u <= c_t1 c.
  Proof.
    intros H U. destruct (rising_table c H) as (I & _).
    destruct (C28_ends c (ri_fresh _ _ H) (ri_ndiv _ _ H) I) as (E0 & E1).
    pose proof (C28_strictly_monotone c (ri_fresh _ _ H) (ri_ndiv _ _ H) I (ri_dom _ _ H)) as M. split.
    - destruct (Req_dec u 0) as [->|N]; [lra|]. rewrite <- E0 at 1. left. apply M; lra.
    - destruct (Req_dec u 1) as [->|N]; [lra|]. rewrite <- E1 at 1. left. apply M; lra.
  Qed.
  Lemma rising_mono c s u : rising mu c -> 0 <= s -> s < u -> u <= 1 -> s2t c s < s2t c u.
  Proof.
    intros H A B C. destruct (rising_table c H) as (I & _).
    apply (C28_strictly_monotone c (ri_fresh _ _ H) (ri_ndiv _ _ H) I (ri_dom _ _ H)); assumption.
  Qed.
  Lemma rising_ends c : rising mu c -> s2t c 0 = c_t0 c /\ s2t c 1 = c_t1 c.
  Proof. intros H. destruct (rising_table c H) as (I & _). apply (C28_ends c (ri_fresh _ _ H) (ri_ndiv _ _ H) I). Qed.

  Lemma rising_eval c s u : rising mu c -> 0 <= s -> s < u -> u <= 1 -> mu (c_eval c s) < mu (c_eval c u).
  Proof.
    intros H A B C. unfold c_eval. apply (ri_up _ _ H).
    - apply rising_dom; [exact H|lra].
    - apply rising_mono; assumption.
    - apply rising_dom; [exact H|lra].
  Qed.

  Lemma rising_hit c t : rising mu c -> c_t0 c <= t <= c_t1 c -> exists u, 0 <= u <= 1 /\ s2t c u = t.
  Proof.
    intros H HT. destruct (rising_table c H) as (I & _). pose proof (ri_fresh _ _ H) as F. pose proof (ri_ndiv _ _ H) as N.
    pose proof (ri_dom _ _ H) as LT. exists (t2s c t). split; [|apply C28_s2t_inverts_t2s; assumption].
    pose proof (fresh_tab c F N) as Tc. pose proof (fresh_ts_incr c F N LT) as IT.
    unfold t2s. destruct (Rlt_dec t (c_t0 c)); [lra|]. destruct (Rlt_dec (c_t1 c) t); [lra|].
    assert (BB : hd 0 (c_ts c) <= t <= last (c_ts c) 0)
      by (rewrite (tab_t0 _ _ _ _ _ Tc), (tab_t1 _ _ _ _ _ Tc); lra).
    rewrite np_interp_in by exact BB.
    destruct (scan_inverse (c_ts c) (c_ss c) t) as [R' _]; auto.
    - symmetry. apply Tc.
    - rewrite <- (tab_len _ _ _ _ _ Tc). apply Tc.
    - rewrite (tab_s0 _ _ _ _ _ Tc), (tab_s1 _ _ _ _ _ Tc) in R'. exact R'.
  Qed.

  Lemma rising_start c u : rising mu c -> 0 <= u < 1 -> rising mu (set_start_on c u).
  Proof.
    intros H U. pose proof (rising_dom c u H ltac:(lra)) as D. pose proof (rising_mono c u 1 H ltac:(lra) ltac:(lra) ltac:(lra)) as M.
    rewrite (proj2 (rising_ends c H)) in M.
    split.
    - apply update_fresh.
    - unfold set_start_on. rewrite update_ndiv. apply (ri_ndiv _ _ H).
    - unfold set_start_on. rewrite update_act. apply (ri_act _ _ H).
    - unfold set_start_on. rewrite update_shape. apply (ri_kind _ _ H).
    - unfold set_start_on. rewrite update_t0, update_t1. exact M.
    - unfold set_start_on. rewrite update_t0, update_t1. cbn [with_domain c_t0 c_t1]. intros t t' A B C.
      unfold c_fun. rewrite update_shape. cbn [with_domain c_shape]. apply (ri_up _ _ H t t'); lra.
  Qed.
  Lemma rising_end c u : rising mu c -> 0 < u <= 1 -> rising mu (set_end_on c u).
  Proof.
    intros H U. pose proof (rising_dom c u H ltac:(lra)) as D. pose proof (rising_mono c 0 u H ltac:(lra) ltac:(lra) ltac:(lra)) as M.
    rewrite (proj1 (rising_ends c H)) in M.
    split.
    - apply update_fresh.
    - unfold set_end_on. rewrite update_ndiv. apply (ri_ndiv _ _ H).
    - unfold set_end_on. rewrite update_act. apply (ri_act _ _ H).
    - unfold set_end_on. rewrite update_shape. apply (ri_kind _ _ H).
    - unfold set_end_on. rewrite update_t0, update_t1. exact M.
    - unfold set_end_on. rewrite update_t0, update_t1. cbn [with_domain c_t0 c_t1]. intros t t' A B C.
      unfold c_fun. rewrite update_shape. cbn [with_domain c_shape]. apply (ri_up _ _ H t t'); lra.
  Qed.

  Lemma local_in c x : 0 < c_length c -> local c x = x / c_length c.
  Proof. intros H. unfold local. destruct (Req_EM_T _ _); [lra|reflexivity]. Qed.
  Lemma div_01 x L : 0 < L -> 0 <= x <= L -> 0 <= x / L <= 1.
  Proof.
    intros H X. assert (I : 0 < / L) by (apply Rinv_0_lt_compat, H). assert (E : L * / L = 1) by (field; lra). unfold Rdiv. split.
    - apply Rmult_le_pos; lra.
    - rewrite <- E. apply Rmult_le_compat_r; lra.
  Qed.
  Lemma div_lt x y L : 0 < L -> x < y -> x / L < y / L.
  Proof. intros H X. unfold Rdiv. apply Rmult_lt_compat_r; [apply Rinv_0_lt_compat, H|exact X]. Qed.

  Lemma rising_positive cs : List.Forall (rising mu) cs -> List.Forall (fun c => 0 < c_length c) cs.
  Proof. apply Forall_impl. intros c H. apply (rising_table c H). Qed.

  Lemma walk_rising cs : List.Forall (rising mu) cs -> joined cs -> cs <> [] -> forall x y, 0 <= x -> x < y -> y <= total cs ->
    mu (walk cs x) < mu (walk cs y).
  Proof.
    induction cs as [|c r IH]; intros F J N x y X XY Y; [contradiction|]. inversion F as [|? ? HC HF]; subst.
    assert (L : 0 < c_length c) by apply (rising_table c HC).
    destruct r as [|d r].
    - cbn [walk]. rewrite !local_in by exact L.
      assert (TT : total [c] = c_length c) by (unfold total; cbn; ring).
      assert (B0 : 0 <= x / c_length c <= 1) by (apply div_01; [exact L|]; lra).
      assert (B1 : 0 <= y / c_length c <= 1) by (apply div_01; [exact L|]; lra).
      apply rising_eval; [exact HC|lra|apply div_lt; assumption|lra].
    - assert (TT : total (c :: d :: r) = c_length c + total (d :: r)) by (unfold total; cbn; ring).
      rewrite (walk_cons c (d :: r) x), (walk_cons c (d :: r) y) by discriminate. destruct J as [J1 J2].
      destruct (Rle_dec y (c_length c)) as [LE|GT].
      + destruct (Rle_dec x (c_length c)) as [LX|GX]; [|lra]. rewrite !local_in by exact L.
        assert (B0 : 0 <= x / c_length c <= 1) by (apply div_01; [exact L|]; lra).
        assert (B1 : 0 <= y / c_length c <= 1) by (apply div_01; [exact L|]; lra).
        apply rising_eval; [exact HC|lra|apply div_lt; assumption|lra].
      + destruct (Rle_dec x (c_length c)) as [LX|GX].
        * apply Rle_lt_trans with (mu (walk (d :: r) 0)).
          -- inversion HF; subst. rewrite walk_start by (apply (rising_table d); assumption). rewrite <- J1, local_in by exact L.
             assert (B0 : 0 <= x / c_length c <= 1) by (apply div_01; [exact L|]; lra).
             destruct (Req_dec (x / c_length c) 1) as [->|NO]; [lra|]. left. apply rising_eval; [exact HC|lra|lra|lra].
          -- apply (IH HF J2); [discriminate|lra|lra|lra].
        * apply (IH HF J2); [discriminate|lra|lra|lra].
  Qed.

  (** A flank made of rising pieces. *)
  Record rising_node (t : node) : Prop := {
    rn_act : n_active t = true; rn_leaves : List.Forall (rising mu) (leaves t); rn_joined : joined (leaves t) }.

  Lemma rn_ne t : rising_node t -> leaves t <> [].
  Proof. intros H. apply active_leaves, (rn_act _ H). Qed.
  Lemma rn_point t s u : rising_node t -> 0 <= s -> s < u -> u <= 1 -> mu (n_point t s) < mu (n_point t u).
  Proof.
    intros H A B C. pose proof (rising_positive _ (rn_leaves _ H)) as P. pose proof (rn_ne _ H) as NE.
    pose proof (positive_total (leaves t) (conj NE P)) as TP.
    rewrite !(leaves_walk t (rn_act _ H) P).
    apply walk_rising; [apply (rn_leaves _ H)|apply (rn_joined _ H)|exact NE| | |].
    - apply Rmult_le_pos; lra.
    - apply Rmult_lt_compat_r; assumption.
    - rewrite <- (Rmult_1_l (total (leaves t))) at 2. apply Rmult_le_compat_r; lra.
  Qed.
  Lemma rn_flank_ok t : rising_node t -> flank_ok t.
  Proof.
    intros H. split.
    - apply (rn_act _ H).
    - apply rising_positive, (rn_leaves _ H).
    - eapply Forall_impl; [|apply (rn_leaves _ H)]. intros c HC. apply (ri_ndiv _ _ HC).
    - apply (rn_joined _ H).
    - intros i Hi E. destruct (step_frac 0 1 i 20) as (A & B & C); try lia; try lra.
      cbv zeta in A, B, C. rewrite !Rplus_0_l, Rminus_0_r, !Rmult_1_l in *. change (INR 20) with (INR 20) in *.
      replace (INR 20) with 20 in * by (cbn; lra).
      pose proof (rn_point t _ _ H A B C) as L. rewrite E in L. lra.
  Qed.
  Lemma rn_usable t : rising_node t -> usable t.
  Proof.
    intros H. split; [apply (rn_act _ H)|]. split.
    - apply positive_wf; [apply (rn_act _ H)|apply rising_positive, (rn_leaves _ H)].
    - eapply Forall_impl; [|apply (rn_leaves _ H)]. intros c HC. split; [apply (ri_fresh _ _ HC)|apply (ri_ndiv _ _ HC)].
  Qed.
  Lemma rn_fresh t : rising_node t -> List.Forall fresh (leaves t).
  Proof. intros H. eapply Forall_impl; [|apply (rn_leaves _ H)]. intros c HC. apply (ri_fresh _ _ HC). Qed.
  (** The place of a point of one of the pieces. *)
  Lemma leaf_place t pre c post u : rising_node t -> leaves t = pre ++ c :: post -> 0 <= u <= 1 -> pre = [] \/ 0 < u ->
    exists s, 0 <= s <= 1 /\ (0 < u -> 0 < s) /\ (u < 1 -> s < 1) /\ n_point t s = c_eval c u.
  Proof.
    intros H L U PU. pose proof (rising_positive _ (rn_leaves _ H)) as P. pose proof (rn_ne _ H) as NE.
    assert (TP : 0 < total (leaves t)) by (apply positive_total; split; assumption).
    pose proof (leaves_walk t (rn_act _ H) P) as LW. rewrite L in *. set (T := total (pre ++ c :: post)) in *.
    pose proof P as P0. apply Forall_app in P0. destruct P0 as [Ppre Pc]. inversion Pc as [|? ? PC Ppost]; subst.
    assert (NN : forall l, List.Forall (fun c => 0 < c_length c) l -> List.Forall (fun c => 0 <= c_length c) l)
      by (intros l; apply Forall_impl; cbn; intros; lra).
    assert (TE : T = total pre + c_length c + total post) by (unfold T; rewrite total_app; unfold total; cbn; ring).
    pose proof (total_nonneg _ (NN _ Ppre)) as T1. pose proof (total_nonneg _ (NN _ Ppost)) as T2.
    assert (U1 : 0 <= u * c_length c) by (apply Rmult_le_pos; lra).
    assert (U2 : u * c_length c <= c_length c) by (rewrite <- (Rmult_1_l (c_length c)) at 2; apply Rmult_le_compat_r; lra).
    exists ((total pre + u * c_length c) / T).
    assert (K : (total pre + u * c_length c) / T * T = total pre + u * c_length c) by (field; lra).
    split; [|split; [|split]].
    - apply div_01; [exact TP|lra].
    - intros U0. apply Rmult_lt_0_compat; [|apply Rinv_0_lt_compat, TP].
      assert (0 < u * c_length c) by (apply Rmult_lt_0_compat; lra). lra.
    - intros U0. apply Rmult_lt_reg_r with T; [exact TP|]. rewrite K, Rmult_1_l.
      assert (u * c_length c < 1 * c_length c) by (apply Rmult_lt_compat_r; lra). lra.
    - rewrite LW, K. rewrite walk_app_r.
      + replace (total pre + u * c_length c - total pre) with (u * c_length c) by ring.
        replace u with (u * c_length c / c_length c) at 2 by (field; lra). rewrite <- local_in by exact PC.
        destruct post as [|d post]; cbn [walk]; [reflexivity|]. destruct (Rle_dec _ _); [reflexivity|contradiction].
      + apply NN, Ppre.
      + discriminate.
      + destruct PU as [->|PU]; [left; reflexivity|right].
        assert (0 < u * c_length c) by (apply Rmult_lt_0_compat; lra). lra.
  Qed.
End Rising.

(** ** Trimming *)
Lemma n_length_total t : n_active t = true -> n_length t = total (leaves t).
Proof.
  destruct t as [c|a l]; intros A.
  - cbn in A. cbn [leaves]. rewrite A. unfold total. cbn. ring.
  - cbn in A. destruct a; [|discriminate]. apply length_array_leaves.
Qed.

(** Every point of every piece satisfies [Q]. *)
Definition within (Q : vec -> Prop) (t : node) : Prop :=
  List.Forall (fun c => forall x, c_t0 c <= x <= c_t1 c -> Q (c_fun c x)) (leaves t).

Section Trim.
  Variables (mu : vec -> R) (Q : vec -> Prop).

  Lemma cut_place pre c post u s L : List.Forall (fun c => 0 < c_length c) (pre ++ c :: post) ->
    L = total (pre ++ c :: post) -> total pre + u * c_length c = s * L ->
    (pre <> [] -> total pre < s * L) -> (post <> [] -> s * L <= total pre + c_length c) ->
    (0 <= s -> 0 <= u) /\ (0 < s -> 0 < u) /\ (s <= 1 -> u <= 1) /\ (s < 1 -> post = [] -> u < 1).
  Proof.
    intros P -> E A B. assert (PC : 0 < c_length c).
    { apply Forall_app in P. destruct P as [_ P]. inversion P. assumption. }
    assert (TP : 0 < total (pre ++ c :: post)).
    { apply positive_total. split; [destruct pre; discriminate|exact P]. }
    assert (TE : total (pre ++ c :: post) = total pre + c_length c + total post) by (rewrite total_app; unfold total; cbn; ring).
    set (L := total (pre ++ c :: post)) in *.
    assert (P0 : 0 <= total post).
    { apply total_nonneg. apply Forall_app in P. destruct P as [_ P]. inversion P; subst. eapply Forall_impl; [|eassumption]. cbn. intros; lra. }
    assert (KP : forall x, 0 < x * c_length c -> 0 < x).
    { intros x H. destruct (Rlt_le_dec 0 x) as [G|G]; [exact G|exfalso]. apply (Rlt_irrefl 0). eapply Rlt_le_trans; [exact H|].
      rewrite <- (Rmult_0_l (c_length c)). apply Rmult_le_compat_r; lra. }
    assert (S1 : s <= 1 -> s * L <= L) by (intros; rewrite <- (Rmult_1_l L) at 2; apply Rmult_le_compat_r; lra).
    assert (UP : s <= 1 -> u <= 1).
    { intros S. destruct (Rle_dec u 1) as [G|G]; [exact G|exfalso]. 
      assert (G' : 0 < (u - 1) * c_length c) by (apply Rmult_lt_0_compat; lra).
      destruct post as [|d post]; [|specialize (B ltac:(discriminate)); lra].
      assert (total [] = 0) by reflexivity. specialize (S1 S). lra. }
    split; [|split; [|split; [exact UP|]]].
    - intros S. destruct pre as [|d pre].
      + assert (Z : total [] = 0) by reflexivity. assert (0 <= s * L) by (apply Rmult_le_pos; lra).
        destruct (Rle_dec 0 u) as [G|G]; [exact G|exfalso]. assert (0 < (- u) * c_length c) by (apply Rmult_lt_0_compat; lra). lra.
      + left. apply KP. specialize (A ltac:(discriminate)). lra.
    - intros S. apply KP. destruct pre as [|d pre].
      + assert (Z : total [] = 0) by reflexivity. assert (0 < s * L) by (apply Rmult_lt_0_compat; lra). lra.
      + specialize (A ltac:(discriminate)). lra.
    - intros S ->. assert (Z : total [] = 0) by reflexivity. assert (s * L < L) by (rewrite <- (Rmult_1_l L) at 2; apply Rmult_lt_compat_r; lra).
      assert (G : 0 < (1 - u) * c_length c) by lra. apply KP in G. lra.
  Qed.

  Lemma rn_end t s : rising_node mu t -> within Q t -> 0 < s <= 1 -> exists m, n_set_end false t s = Ok m /\
    rising_node mu m /\ within Q m /\ n_point m 0 = n_point t 0 /\ n_point m 1 = n_point t s /\ exists pre c post u, leaves t = pre ++ c :: post /\ leaves m = pre ++ [set_end_on c u] /\
      0 < u <= 1 /\ c_eval c u = n_point t s /\ c_eval (set_end_on c u) 1 = n_point m 1.
  Proof.
    intros H W S. pose proof (rn_usable mu t H) as U. pose proof (rising_positive mu _ (rn_leaves _ _ H)) as P.
    set (d := line_curve ORIGIN RIGHT true).
    destruct (set_end_spec t (rn_act _ _ H) (proj1 (proj2 U)) (rn_fresh _ _ H) false s) as (pre & c & post & u & m & L & E & LM & _ & PL & PA & PB).
    destruct (end_cut t s d U (rn_joined _ _ H)) as (m' & c' & u' & E' & JM & NM & PT & HD & _).
    rewrite E in E'. apply Ok_inj in E'. subst m'.
    rewrite L in P. assert (PC : 0 < c_length c) by (apply Forall_app in P; destruct P as [_ P]; inversion P; assumption).
    pose proof (n_length_total t (rn_act _ _ H)) as NL. rewrite L in NL.
    assert (TP : 0 < total (pre ++ c :: post)) by (apply positive_total; split; [destruct pre; discriminate|exact P]).
    destruct (cut_place pre c post u s (n_length t) P NL (PL ltac:(lra) ltac:(lra)) PA PB) as (_ & U0 & U1 & _).
    specialize (U0 ltac:(lra)). specialize (U1 ltac:(lra)).
    pose proof (rn_leaves _ _ H) as RL. rewrite L in RL. apply Forall_app in RL. destruct RL as [RP RC]. inversion RC as [|? ? HC HP]; subst.
    assert (RM : rising_node mu m).
    { split; [apply active_leaves, NM| |exact JM]. rewrite LM. apply Forall_app. split; [exact RP|].
      constructor; [apply rising_end; [exact HC|lra]|constructor]. }
    exists m. split; [exact E|]. split; [exact RM|]. split; [|].
    - unfold within in *. rewrite LM. rewrite L in W. apply Forall_app in W. destruct W as [WP WC]. inversion WC as [|? ? WC0 _]; subst.
      apply Forall_app. split; [exact WP|]. constructor; [|constructor].
      intros x X. unfold set_end_on in *. rewrite update_t0, update_t1 in X. cbn [with_domain c_t0 c_t1] in X.
      unfold c_fun. rewrite update_shape. apply WC0. pose proof (rising_dom mu c u HC ltac:(lra)). lra.
    - pose proof (rising_positive mu _ (rn_leaves _ _ H)) as P'.
      destruct (leaves_ends m d (rn_act _ _ RM) (rising_positive mu _ (rn_leaves _ _ RM))) as (M0 & M1).
      destruct (leaves_ends t d (rn_act _ _ H) P') as (T0 & _).
      rewrite (leaves_wf t (rn_act _ _ H) P' s) in PT. apply Ok_inj in PT. split; [congruence|]. split; [congruence|].
      exists pre, c, post, u. split; [exact L|]. split; [exact LM|]. split; [lra|]. rewrite LM, last_last in *. split; [|congruence].
      destruct (C29_set_end_on c u (ri_fresh _ _ HC) (ri_ndiv _ _ HC)) as (QE & _). congruence.
  Qed.

  Lemma rn_start t s : rising_node mu t -> within Q t -> 0 <= s < 1 ->
    (forall c, In c (leaves t) -> n_point t s <> c_eval c 1) -> exists m, n_set_start false t s = Ok m /\
    rising_node mu m /\ within Q m /\ n_point m 0 = n_point t s /\ n_point m 1 = n_point t 1.
  Proof.
    intros H W S NJ. pose proof (rn_usable mu t H) as U. pose proof (rising_positive mu _ (rn_leaves _ _ H)) as P.
    set (d := line_curve ORIGIN RIGHT true).
    destruct (set_start_spec t (rn_act _ _ H) (proj1 (proj2 U)) (rn_fresh _ _ H) false s) as (pre & c & post & u & m & L & E & LM & EV & PL & PA & PB).
    destruct (start_cut t s d U (rn_joined _ _ H)) as (m' & c' & u' & E' & JM & NM & PT & HD & _).
    rewrite E in E'. apply Ok_inj in E'. subst m'.
    rewrite L in P. assert (PC : 0 < c_length c) by (apply Forall_app in P; destruct P as [_ P]; inversion P; assumption).
    pose proof (n_length_total t (rn_act _ _ H)) as NL. rewrite L in NL.
    assert (TP : 0 < total (pre ++ c :: post)) by (apply positive_total; split; [destruct pre; discriminate|exact P]).
    destruct (cut_place pre c post u s (n_length t) P NL (PL ltac:(lra) ltac:(lra)) PA PB) as (U0 & _ & U1 & U2).
    specialize (U0 ltac:(lra)). specialize (U1 ltac:(lra)).
    pose proof (rn_leaves _ _ H) as RL. rewrite L in RL. apply Forall_app in RL. destruct RL as [RP RC]. inversion RC as [|? ? HC HP]; subst.
    assert (P' : List.Forall (fun c => 0 < c_length c) (leaves t)) by apply (rising_positive mu _ (rn_leaves _ _ H)).
    rewrite (leaves_wf t (rn_act _ _ H) P' s) in PT, EV. apply Ok_inj in PT. apply Ok_inj in EV.
    assert (U3 : u < 1).
    { destruct (Req_dec u 1) as [->|N1]; [|lra]. exfalso. apply (NJ c); [rewrite L; apply in_app_iff; right; left; reflexivity|exact EV]. }
    assert (RM : rising_node mu m).
    { split; [apply active_leaves, NM| |exact JM]. rewrite LM. constructor; [apply rising_start; [exact HC|lra]|exact HP]. }
    exists m. split; [exact E|]. split; [exact RM|]. split; [|].
    - unfold within in *. rewrite LM. rewrite L in W. apply Forall_app in W. destruct W as [WP WC]. inversion WC as [|? ? WC0 WC1]; subst.
      constructor; [|exact WC1].
      intros x X. unfold set_start_on in *. rewrite update_t0, update_t1 in X. cbn [with_domain c_t0 c_t1] in X.
      unfold c_fun. rewrite update_shape. apply WC0. pose proof (rising_dom mu c u HC ltac:(lra)). lra.
    - destruct (leaves_ends m d (rn_act _ _ RM) (rising_positive mu _ (rn_leaves _ _ RM))) as (M0 & M1).
      destruct (leaves_ends t d (rn_act _ _ H) P') as (_ & T1). split; congruence.
  Qed.

  Lemma rn_within t s : rising_node mu t -> within Q t -> 0 <= s <= 1 -> Q (n_point t s).
  Proof.
    intros H W S. pose proof (rising_positive mu _ (rn_leaves _ _ H)) as P. rewrite (leaves_walk t (rn_act _ _ H) P).
    assert (TP : 0 < total (leaves t)) by (apply positive_total; split; [apply (rn_ne mu), H|exact P]).
    assert (B : 0 <= s * total (leaves t) <= total (leaves t)).
    { split; [apply Rmult_le_pos; lra|]. rewrite <- (Rmult_1_l (total (leaves t))) at 2. apply Rmult_le_compat_r; lra. }
    destruct (walk_split (leaves t) (s * total (leaves t)) (conj (rn_ne mu t H) P)) as (a & c & b & E & LO & HI & ->).
    unfold within in W. pose proof (rn_leaves _ _ H) as RL. rewrite E in W, RL, P, B. apply Forall_app in W. destruct W as [_ W].
    apply Forall_app in RL. destruct RL as [_ RL]. apply Forall_app in P. destruct P as [P0 P].
    inversion W as [|? ? WC _]; subst. inversion RL as [|? ? HC _]; subst. inversion P as [|? ? PC PB]; subst.
    rewrite E in HI, LO |- *. set (y := s * total (a ++ c :: b)) in *.
    assert (TE : total (a ++ c :: b) = total a + c_length c + total b) by (rewrite total_app; unfold total; cbn; ring).
    unfold c_eval. apply WC. apply (rising_dom mu c _ HC). apply div_01; [exact PC|]. split.
    - destruct LO as [->|LO]; [unfold total; cbn; lra|lra].
    - destruct HI as [->|HI]; [|lra]. assert (total [] = 0) by reflexivity. lra.
  Qed.
End Trim.
