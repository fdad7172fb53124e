(** Single curves: C28 - C32. *)
From Coq Require Import Reals Lra Lia Psatz List.
From Verif Require Import Num Vec Coords Bezier BezierLem BezierProps Interp Curve CurveLem.
Import ListNotations.
Open Scope R_scope.

Ltac list_eq := repeat (apply f_equal2; [simpl; try field; try lra|]); try reflexivity.

(** *** A concrete curve: t |-> (t^2, 0, 0) on [0,1], three samples. *)
Definition sq_curve : curve := new_curve (SGen (fun t => V (t * t) 0 0)) true 0 1 3.
Lemma norm_x a : norm (V a 0 0) = Rabs a.
Proof.
  unfold norm. replace (dot (V a 0 0) (V a 0 0)) with (Rsqr a) by (vec_simpl; unfold Rsqr; ring).
  apply sqrt_Rsqr_abs.
Qed.
Lemma sq_table : c_ss sq_curve = [0; 1 / 4; 1] /\ c_ts sq_curve = [0; 1 / 2; 1] /\ c_length sq_curve = 1.
Proof.
  assert (L : linspace 0 1 3 = [0; 1 / 2; 1]).
  { unfold linspace. cbn [seq map]. cbn [Nat.sub]. list_eq. }
  assert (P : polylen 0 (map (fun t => V (t * t) 0 0) [0; 1 / 2; 1]) = [0; 1 / 4; 1]).
  { cbn [map polylen].
    replace (vsub (V (1 / 2 * (1 / 2)) 0 0) (V (0 * 0) 0 0)) with (V (1 / 4) 0 0)
      by (apply vec_eq; vec_simpl; field).
    replace (vsub (V (1 * 1) 0 0) (V (1 / 2 * (1 / 2)) 0 0)) with (V (3 / 4) 0 0)
      by (apply vec_eq; vec_simpl; field).
    rewrite !norm_x, !Rabs_right by lra. list_eq. }
  unfold sq_curve, new_curve, update_lengths. cbn [c_shape c_t0 c_t1 c_ndiv c_act c_fun].
  unfold c_fun. cbn [c_shape]. rewrite shape_fun_gen, L, P. cbn [last].
  destruct (Req_EM_T 1 0); [lra|]. cbn [c_ss c_ts c_length map].
  split; [|split]; [list_eq|list_eq|reflexivity].
Qed.
Lemma sq_fresh : fresh sq_curve.
Proof. apply new_fresh. Qed.

(** ** C28 *)
(** The sample parameters of a fresh curve. *)
Lemma fresh_ts_incr c : fresh c -> (2 <= c_ndiv c)%nat -> c_t0 c < c_t1 c -> incr (c_ts c).
Proof.
  intros F H LT. rewrite <- F. unfold update_lengths.
  destruct (c_shape c); cbn [c_ts]; try (apply linspace_incr; exact LT); simpl; auto.
Qed.

Lemma tab_strict c : fresh c -> (2 <= c_ndiv c)%nat -> incr (c_ss c) ->
  exists n, length (c_ss c) = n /\ length (c_ts c) = n /\ (2 <= n)%nat /\
    nth 0 (c_ss c) 0 = 0 /\ nth (n - 1) (c_ss c) 0 = 1 /\
    nth 0 (c_ts c) 0 = c_t0 c /\ nth (n - 1) (c_ts c) 0 = c_t1 c.
Proof.
  intros F H I. pose proof (fresh_tab c F H) as T.
  exists (length (c_ss c)). split; [reflexivity|]. split; [symmetry; apply T|].
  split; [apply T|]. rewrite <- !last_nth, <- !hd_nth.
  split; [apply T|]. split; [apply T|]. split; [apply T|].
  rewrite (tab_len _ _ _ _ _ T), <- last_nth. apply T.
Qed.

Theorem C28_ends c : fresh c -> (2 <= c_ndiv c)%nat -> incr (c_ss c) ->
  s2t c 0 = c_t0 c /\ s2t c 1 = c_t1 c.
Proof.
  intros F H I. pose proof (fresh_tab c F H) as T.
  rewrite !s2t_in by lra.
  rewrite !np_interp_in by (rewrite (tab_s0 _ _ _ _ _ T), (tab_s1 _ _ _ _ _ T); lra).
  destruct (tab_strict c F H I) as (n & L1 & L2 & N & S0 & S1 & T0 & T1). split.
  - rewrite <- S0 at 1. rewrite scan_node; auto; lia.
  - rewrite <- S1 at 1. rewrite scan_node; auto; lia.
Qed.

Theorem C28_strictly_monotone c : fresh c -> (2 <= c_ndiv c)%nat -> incr (c_ss c) ->
  c_t0 c < c_t1 c -> forall s u, 0 <= s -> s < u -> u <= 1 -> s2t c s < s2t c u.
Proof.
  intros F H I LT s u Hs SU Hu. pose proof (fresh_tab c F H) as T.
  rewrite !s2t_in by lra.
  rewrite !np_interp_in by (rewrite (tab_s0 _ _ _ _ _ T), (tab_s1 _ _ _ _ _ T); lra).
  apply scan_mono; auto; try apply T; try (apply fresh_ts_incr; assumption).
  - rewrite (tab_s0 _ _ _ _ _ T). exact Hs.
  - rewrite (tab_s1 _ _ _ _ _ T). exact Hu.
Qed.

Theorem C28_strictly_monotone_reversed c : fresh c -> (2 <= c_ndiv c)%nat -> incr (c_ss c) ->
  c_t1 c < c_t0 c -> forall s u, 0 <= s -> s < u -> u <= 1 -> s2t c u < s2t c s.
Proof.
  intros F H I LT s u Hs SU Hu. pose proof (fresh_tab c F H) as T.
  rewrite !s2t_in by lra.
  rewrite !np_interp_in by (rewrite (tab_s0 _ _ _ _ _ T), (tab_s1 _ _ _ _ _ T); lra).
  assert (L : length (c_ss c) = length (c_ts c)) by apply T.
  assert (M : interp_scan s (c_ss c) (map Ropp (c_ts c)) < interp_scan u (c_ss c) (map Ropp (c_ts c))).
  { apply scan_mono; auto; try apply T.
    - rewrite map_length. exact L.
    - apply incr_intro. intros i Hi. rewrite map_length in Hi. rewrite !nth_map_fun by lia.
      assert (D : forall ts, c_ts c = ts -> nth (S i) ts 0 < nth i ts 0); [|specialize (D _ eq_refl); lra].
      assert (Hi' := Hi). rewrite <- F in Hi' |- *. intros ts <-. revert Hi'.
      unfold update_lengths. destruct (c_shape c); cbn [c_ts];
        rewrite ?linspace_length; intros Hi'.
      2,3: simpl in Hi'; assert (i = 0)%nat by lia; subst i; simpl; exact LT.
      all: rewrite !linspace_nth by lia; rewrite S_INR;
        assert (0 < (c_t0 c - c_t1 c) / INR (c_ndiv c - 1))
          by (apply Rdiv_lt_0_compat; [lra|apply INR_pos_2; lia]);
        replace ((c_t1 c - c_t0 c) / INR (c_ndiv c - 1))
          with (- ((c_t0 c - c_t1 c) / INR (c_ndiv c - 1)))
          by (field; pose proof (INR_pos_2 (c_ndiv c) H); lra); nra.
    - rewrite (tab_s0 _ _ _ _ _ T). exact Hs.
    - rewrite (tab_s1 _ _ _ _ _ T). exact Hu. }
  rewrite !scan_opp in M by exact L. lra.
Qed.

Lemma interpolate_below x x0 x1 y0 y1 : x0 < x1 -> y0 < y1 -> x < x0 -> interpolate x x0 x1 y0 y1 < y0.
Proof.
  intros. unfold interpolate.
  assert (0 < (y1 - y0) / (x1 - x0)) by (apply Rdiv_lt_0_compat; lra).
  replace ((y1 - y0) * (x - x0) / (x1 - x0)) with ((y1 - y0) / (x1 - x0) * (x - x0)) by (field; lra).
  nra.
Qed.
Lemma interpolate_above x x0 x1 y0 y1 : x1 < x0 -> y1 < y0 -> x0 < x -> y0 < interpolate x x0 x1 y0 y1.
Proof.
  intros. unfold interpolate.
  assert (0 < (y0 - y1) / (x0 - x1)) by (apply Rdiv_lt_0_compat; lra).
  replace ((y1 - y0) * (x - x0) / (x1 - x0)) with ((y0 - y1) / (x0 - x1) * (x - x0)) by (field; lra).
  nra.
Qed.

(** The two maps are inverse to each other, also where they extrapolate. *)
Theorem C28_t2s_inverts_s2t c : fresh c -> (2 <= c_ndiv c)%nat -> incr (c_ss c) ->
  c_t0 c < c_t1 c -> forall s, t2s c (s2t c s) = s.
Proof.
  intros F H I LT s. pose proof (fresh_tab c F H) as T.
  pose proof (fresh_ts_incr c F H LT) as IT.
  destruct (tab_strict c F H I) as (n & L1 & L2 & N & S0 & S1 & T0 & T1).
  pose proof (incr_nth _ 0 1 I ltac:(lia)) as I01.
  pose proof (incr_nth _ 0 1 IT ltac:(lia)) as T01.
  pose proof (incr_nth _ (n - 2) (n - 1) I ltac:(lia)) as In.
  pose proof (incr_nth _ (n - 2) (n - 1) IT ltac:(lia)) as Tn.
  unfold s2t. rewrite L1. destruct (Rlt_dec s 0) as [A|A]; [|destruct (Rlt_dec 1 s) as [B|B]].
  - unfold t2s. rewrite L2.
    pose proof (interpolate_below s _ _ _ _ I01 T01 ltac:(lra)) as LB. rewrite T0 in LB at 2.
    destruct (Rlt_dec _ (c_t0 c)); [|lra]. apply interpolate_inv; lra.
  - unfold t2s. rewrite L2.
    pose proof (interpolate_above s _ _ _ _ In Tn ltac:(lra)) as LB. rewrite T1 in LB at 1.
    destruct (Rlt_dec _ (c_t0 c)); [lra|]. destruct (Rlt_dec (c_t1 c) _); [|lra].
    apply interpolate_inv; lra.
  - assert (BB : hd 0 (c_ss c) <= s <= last (c_ss c) 0)
      by (rewrite (tab_s0 _ _ _ _ _ T), (tab_s1 _ _ _ _ _ T); lra).
    rewrite np_interp_in by exact BB.
    destruct (scan_inverse (c_ss c) (c_ts c) s ltac:(lia) I IT ltac:(lia) BB) as [R E].
    assert (R' := R). rewrite (tab_t0 _ _ _ _ _ T), (tab_t1 _ _ _ _ _ T) in R'.
    unfold t2s. destruct (Rlt_dec _ (c_t0 c)); [lra|]. destruct (Rlt_dec (c_t1 c) _); [lra|].
    rewrite np_interp_in by exact R. exact E.
Qed.

Theorem C28_s2t_inverts_t2s c : fresh c -> (2 <= c_ndiv c)%nat -> incr (c_ss c) ->
  c_t0 c < c_t1 c -> forall t, s2t c (t2s c t) = t.
Proof.
  intros F H I LT t. pose proof (fresh_tab c F H) as T.
  pose proof (fresh_ts_incr c F H LT) as IT.
  destruct (tab_strict c F H I) as (n & L1 & L2 & N & S0 & S1 & T0 & T1).
  pose proof (incr_nth _ 0 1 I ltac:(lia)) as I01.
  pose proof (incr_nth _ 0 1 IT ltac:(lia)) as T01.
  pose proof (incr_nth _ (n - 2) (n - 1) I ltac:(lia)) as In.
  pose proof (incr_nth _ (n - 2) (n - 1) IT ltac:(lia)) as Tn.
  unfold t2s. rewrite L2. destruct (Rlt_dec t (c_t0 c)) as [A|A]; [|destruct (Rlt_dec (c_t1 c) t) as [B|B]].
  - unfold s2t. rewrite L1.
    pose proof (interpolate_below t _ _ _ _ T01 I01 ltac:(lra)) as LB. rewrite S0 in LB at 2.
    destruct (Rlt_dec _ 0); [|lra]. apply interpolate_inv; lra.
  - unfold s2t. rewrite L1.
    pose proof (interpolate_above t _ _ _ _ Tn In ltac:(lra)) as LB. rewrite S1 in LB at 1.
    destruct (Rlt_dec _ 0); [lra|]. destruct (Rlt_dec 1 _); [|lra].
    apply interpolate_inv; lra.
  - assert (BB : hd 0 (c_ts c) <= t <= last (c_ts c) 0)
      by (rewrite (tab_t0 _ _ _ _ _ T), (tab_t1 _ _ _ _ _ T); lra).
    rewrite np_interp_in by exact BB.
    destruct (scan_inverse (c_ts c) (c_ss c) t ltac:(lia) IT I ltac:(lia) BB) as [R E].
    assert (R' := R). rewrite (tab_s0 _ _ _ _ _ T), (tab_s1 _ _ _ _ _ T) in R'.
    unfold s2t. destruct (Rlt_dec _ 0); [lra|]. destruct (Rlt_dec 1 _); [lra|].
    rewrite np_interp_in by exact R. exact E.
Qed.

(** Sum of the chord lengths over the first [i] of the [n-1] equal parameter steps. *)
Definition chord_sum (f : R -> vec) (t0 t1 : R) (n i : nat) : R :=
  fold_right Rplus 0 (map (fun j =>
    norm (vsub (f (t0 + (t1 - t0) * INR (S j) / INR (n - 1)))
               (f (t0 + (t1 - t0) * INR j / INR (n - 1))))) (seq 0 i)).

Lemma chord_sum_S f t0 t1 n i : chord_sum f t0 t1 n (S i) = chord_sum f t0 t1 n i +
  norm (vsub (f (t0 + (t1 - t0) * INR (S i) / INR (n - 1))) (f (t0 + (t1 - t0) * INR i / INR (n - 1)))).
Proof.
  unfold chord_sum. rewrite seq_S, map_app. cbn [map].
  generalize (map (fun j => norm (vsub (f (t0 + (t1 - t0) * INR (S j) / INR (n - 1)))
               (f (t0 + (t1 - t0) * INR j / INR (n - 1))))) (seq 0 i)) as l.
  intros l. change (0 + i)%nat with i. induction l as [|x l IH]; cbn [fold_right app].
  - ring.
  - rewrite IH. ring.
Qed.

Lemma polylen_chord f t0 t1 n i : (i < n)%nat ->
  nth i (polylen 0 (map f (linspace t0 t1 n))) 0 = chord_sum f t0 t1 n i.
Proof.
  induction i; intros Hi.
  - rewrite polylen_0; [reflexivity|]. intros E. apply (f_equal (@length vec)) in E.
    rewrite map_length, linspace_length in E. simpl in E. lia.
  - rewrite polylen_S by (rewrite map_length, linspace_length; lia).
    rewrite IHi by lia. rewrite chord_sum_S. f_equal. f_equal.
    rewrite !nth_map_fun by (rewrite linspace_length; lia). rewrite !linspace_nth by lia.
    assert (INR (n - 1) <> 0) by (apply not_0_INR; lia).
    f_equal; f_equal; field; assumption.
Qed.

(** At every sample the parameter s is the travelled share of the polyline through the samples,
    and the reported length is the length of that polyline. *)
Theorem C28_table_is_length_share f act t0 t1 n i : (2 <= n)%nat -> (i < n)%nat ->
  let c := update_lengths (new_curve (SGen f) act t0 t1 n) in
  c_length c = chord_sum f t0 t1 n (n - 1) /\
  nth i (c_ts c) 0 = t0 + (t1 - t0) * INR i / INR (n - 1) /\
  nth i (c_ss c) 0 * c_length c = chord_sum f t0 t1 n i.
Proof.
  intros Hn Hi c.
  assert (Sh : c_shape (new_curve (SGen f) act t0 t1 n) = SGen f /\
    c_t0 (new_curve (SGen f) act t0 t1 n) = t0 /\ c_t1 (new_curve (SGen f) act t0 t1 n) = t1 /\
    c_ndiv (new_curve (SGen f) act t0 t1 n) = n) by (unfold new_curve; destruct act; auto).
  destruct Sh as (E1 & E2 & E3 & E4).
  unfold c, update_lengths, c_fun. rewrite E1, E2, E3, E4. cbn [c_length c_ts c_ss]. rewrite shape_fun_gen.
  set (cl := polylen 0 (map f (linspace t0 t1 n))).
  assert (LL : length cl = n) by (unfold cl; rewrite polylen_length, map_length; apply linspace_length).
  assert (PI' := INR_pos_2 n Hn).
  split; [|split].
  - rewrite last_nth, LL. apply polylen_chord. lia.
  - rewrite linspace_nth by lia. field. lra.
  - rewrite <- (polylen_chord f t0 t1 n i Hi). fold cl.
    destruct (Req_EM_T (last cl 0) 0) as [E|E].
    + rewrite E, Rmult_0_r.
      assert (0 <= nth i cl 0).
      { rewrite <- (polylen_0 0 (map f (linspace t0 t1 n))) at 1.
        - apply nondec_nth; [apply polylen_nondec|]. fold cl. lia.
        - intros E0. apply (f_equal (@length vec)) in E0. rewrite map_length, linspace_length in E0.
          simpl in E0. lia. }
      assert (nth i cl 0 <= last cl 0).
      { rewrite last_nth. apply nondec_nth; [apply polylen_nondec|lia]. }
      lra.
    + rewrite nth_map_fun by lia. field. exact E.
Qed.

(** Distinct neighbouring samples make the table strictly increasing. *)
Theorem C28_distinct_samples_strict f t0 t1 n : (2 <= n)%nat ->
  (forall i, (S i < n)%nat -> f (t0 + (t1 - t0) * INR i / INR (n - 1)) <>
                             f (t0 + (t1 - t0) * INR (S i) / INR (n - 1))) ->
  incr (c_ss (new_curve (SGen f) true t0 t1 n)).
Proof.
  intros Hn D. unfold new_curve, update_lengths, c_fun. cbn [c_shape c_t0 c_t1 c_ndiv c_ss]. rewrite shape_fun_gen.
  set (cl := polylen 0 (map f (linspace t0 t1 n))).
  assert (LL : length cl = n) by (unfold cl; rewrite polylen_length, map_length; apply linspace_length).
  destruct (Req_EM_T (last cl 0) 0) as [E|E]; [apply linspace_incr; lra|].
  assert (P : 0 < last cl 0).
  { assert (0 <= last cl 0); [|lra]. apply polylen_last_nonneg. intros E0.
    apply (f_equal (@length vec)) in E0. rewrite map_length, linspace_length in E0. simpl in E0. lia. }
  apply incr_intro. intros i Hi. rewrite map_length, LL in Hi.
  rewrite !nth_map_fun by lia. unfold Rdiv. apply Rmult_lt_compat_r; [apply Rinv_0_lt_compat; lra|].
  unfold cl. rewrite !polylen_chord by lia. rewrite chord_sum_S.
  match goal with |- _ < _ + norm ?v => assert (0 < norm v) end; [|lra].
  apply norm_pos. intros E0. apply (D i Hi).
  rewrite <- (vadd_vsub (f (t0 + (t1 - t0) * INR (S i) / INR (n - 1)))
                        (f (t0 + (t1 - t0) * INR i / INR (n - 1)))), E0, vadd_0_l. reflexivity.
Qed.

Example C28_example : s2t sq_curve (1 / 4) = 1 / 2 /\ t2s sq_curve (1 / 2) = 1 / 4.
Proof.
  destruct sq_table as (SS & TS & _).
  assert (E : s2t sq_curve (1 / 4) = 1 / 2).
  { rewrite s2t_in by lra. rewrite SS, TS. unfold np_interp. cbn [hd last interp_scan].
    repeat (destruct (Rlt_dec _ _); try lra). destruct (Req_EM_T (1/4) (1/4)); lra. }
  split; [exact E|]. rewrite <- E. apply C28_t2s_inverts_s2t.
  - apply sq_fresh.
  - simpl. lia.
  - rewrite SS. simpl. lra.
  - simpl. lra.
Qed.
Lemma sq_incr : incr (c_ss sq_curve).
Proof. destruct sq_table as (-> & _). simpl. lra. Qed.
Example C28_ends_example : s2t sq_curve 0 = 0 /\ s2t sq_curve 1 = 1.
Proof. apply (C28_ends sq_curve sq_fresh); [simpl; lia|apply sq_incr]. Qed.
Example C28_strictly_monotone_example : s2t sq_curve (1 / 5) < s2t sq_curve (1 / 3).
Proof. apply (C28_strictly_monotone sq_curve sq_fresh); [simpl; lia|apply sq_incr|simpl; lra|lra|lra|lra]. Qed.
Example C28_s2t_inverts_t2s_example : s2t sq_curve (t2s sq_curve (3 / 4)) = 3 / 4.
Proof. apply (C28_s2t_inverts_t2s sq_curve sq_fresh); [simpl; lia|apply sq_incr|simpl; lra]. Qed.
Example C28_table_is_length_share_example :
  let f := fun t => V (t * t) (t * t * t) 0 in
  let c := update_lengths (new_curve (SGen f) true 0 2 5) in nth 3 (c_ss c) 0 * c_length c = chord_sum f 0 2 5 3.
Proof. intros f. apply (C28_table_is_length_share f true 0 2 5 3); lia. Qed.
Lemma down_incr : incr (c_ss (new_curve (SGen (fun t => V t (t * t) 0)) true 1 0 3)).
Proof.
  apply C28_distinct_samples_strict; [lia|]. intros i Hi E. apply (f_equal vx) in E. cbn [vx] in E.
  destruct i as [|[|i]]; [| |lia]; cbn [Nat.sub INR] in E; lra.
Qed.
Example C28_distinct_samples_strict_example : incr (c_ss (new_curve (SGen (fun t => V t (t * t) 0)) true 1 0 3)).
Proof. exact down_incr. Qed.
Example C28_strictly_monotone_reversed_example :
  let c := new_curve (SGen (fun t => V t (t * t) 0)) true 1 0 3 in s2t c (1 / 3) < s2t c (1 / 5).
Proof.
  intros c. apply (C28_strictly_monotone_reversed c); [apply new_fresh|simpl; lia|apply down_incr|simpl; lra|lra|lra|lra].
Qed.

(** On a reversed curve t2s is not the inverse: every parameter below t_0 is treated as an
    extrapolation of the first interval. *)
Theorem C28_t2s_reversed_refuted : exists c s, fresh c /\ (2 <= c_ndiv c)%nat /\
  incr (c_ss c) /\ c_t1 c < c_t0 c /\ 0 <= s <= 1 /\ t2s c (s2t c s) <> s.
Proof.
  pose (c := mkCurve (SGen (fun t => V (t * t) 0 0)) true 1 0 3 1 [1; 1 / 2; 0] [0; 3 / 4; 1]).
  exists c, (7 / 8).
  split.
  { unfold fresh, c, update_lengths, c_fun. cbn [c_shape c_t0 c_t1 c_ndiv c_act]. rewrite shape_fun_gen.
    assert (L : linspace 1 0 3 = [1; 1 / 2; 0]).
    { unfold linspace. cbn [seq map]. cbn [Nat.sub]. list_eq. }
    assert (P : polylen 0 (map (fun t => V (t * t) 0 0) [1; 1 / 2; 0]) = [0; 3 / 4; 1]).
    { cbn [map polylen].
      replace (vsub (V (1 / 2 * (1 / 2)) 0 0) (V (1 * 1) 0 0)) with (V (- (3 / 4)) 0 0)
        by (apply vec_eq; vec_simpl; field).
      replace (vsub (V (0 * 0) 0 0) (V (1 / 2 * (1 / 2)) 0 0)) with (V (- (1 / 4)) 0 0)
        by (apply vec_eq; vec_simpl; field).
      rewrite !norm_x, !Rabs_left by lra. list_eq. }
    rewrite L, P. cbn [last]. destruct (Req_EM_T 1 0); [lra|]. cbn [map].
    apply f_equal2; list_eq. }
  split; [simpl; lia|]. split; [simpl; lra|]. split; [simpl; lra|]. split; [lra|].
  assert (E : s2t c (7 / 8) = 1 / 4).
  { rewrite s2t_in by lra. unfold np_interp, c. cbn [c_ss c_ts hd last interp_scan].
    repeat (destruct (Rlt_dec _ _); try lra). destruct (Req_EM_T (7/8) (3/4)); [lra|]. field. }
  rewrite E. unfold t2s, c. cbn [c_t0 c_ts c_ss nth length].
  destruct (Rlt_dec (1 / 4) 1); [|lra]. unfold interpolate. lra.
Qed.

(** ** C29 *)
Theorem C29_set_start_on c s : fresh c -> (2 <= c_ndiv c)%nat ->
  c_eval (set_start_on c s) 0 = c_eval c s /\ c_eval (set_start_on c s) 1 = c_eval c 1.
Proof.
  intros F H. unfold set_start_on.
  set (d := with_domain c (s2t c s) (c_t1 c)).
  assert (Fr : fresh (update_lengths d)) by apply update_fresh.
  split.
  - rewrite fresh_start by (try exact Fr; rewrite update_ndiv; exact H).
    rewrite update_fun, update_t0. reflexivity.
  - rewrite !fresh_end by (try exact Fr; try exact F; rewrite ?update_ndiv; exact H).
    rewrite update_fun, update_t1. reflexivity.
Qed.

Theorem C29_set_end_on c s : fresh c -> (2 <= c_ndiv c)%nat ->
  c_eval (set_end_on c s) 1 = c_eval c s /\ c_eval (set_end_on c s) 0 = c_eval c 0.
Proof.
  intros F H. unfold set_end_on.
  set (d := with_domain c (c_t0 c) (s2t c s)).
  assert (Fr : fresh (update_lengths d)) by apply update_fresh.
  split.
  - rewrite fresh_end by (try exact Fr; rewrite update_ndiv; exact H).
    rewrite update_fun, update_t1. reflexivity.
  - rewrite !fresh_start by (try exact Fr; try exact F; rewrite ?update_ndiv; exact H).
    rewrite update_fun, update_t0. reflexivity.
Qed.
Example C29_set_end_on_example :
  c_eval (set_end_on sq_curve (1 / 4)) 1 = c_eval sq_curve (1 / 4) /\ c_eval (set_end_on sq_curve (1 / 4)) 0 = c_eval sq_curve 0.
Proof. apply C29_set_end_on; [apply sq_fresh|simpl; lia]. Qed.

Theorem C29_set_start_and_end_on c s u : (2 <= c_ndiv c)%nat ->
  c_eval (set_start_and_end_on c s u) 0 = c_eval c s /\
  c_eval (set_start_and_end_on c s u) 1 = c_eval c u.
Proof.
  intros H. unfold set_start_and_end_on.
  set (d := with_domain c (s2t c s) (s2t c u)).
  assert (Fr : fresh (update_lengths d)) by apply update_fresh.
  rewrite fresh_start, fresh_end by (try exact Fr; rewrite update_ndiv; exact H).
  rewrite update_fun, update_t0, update_t1. split; reflexivity.
Qed.
Example C29_set_start_and_end_on_example :
  c_eval (set_start_and_end_on sq_curve (1 / 4) (1 / 2)) 0 = c_eval sq_curve (1 / 4)
  /\ c_eval (set_start_and_end_on sq_curve (1 / 4) (1 / 2)) 1 = c_eval sq_curve (1 / 2).
Proof. apply C29_set_start_and_end_on. simpl. lia. Qed.

Theorem C29_cut c s : fresh c -> (2 <= c_ndiv c)%nat ->
  let '(a, b) := c_cut c s in
  c_eval a 0 = c_eval c 0 /\ c_eval a 1 = c_eval c s /\
  c_eval b 0 = c_eval c s /\ c_eval b 1 = c_eval c 1.
Proof.
  intros F H. unfold c_cut.
  destruct (C29_set_end_on c s F H), (C29_set_start_on c s F H). auto.
Qed.
Example C29_cut_example : let '(a, b) := c_cut sq_curve (1 / 4) in c_eval a 1 = c_eval b 0.
Proof.
  pose proof (C29_cut sq_curve (1 / 4) sq_fresh ltac:(simpl; lia)) as K.
  destruct (c_cut sq_curve (1 / 4)) as [a b]. destruct K as (_ & -> & -> & _). reflexivity.
Qed.

(** Trimming only narrows the curve: with an increasing table and a cut in [0,1], every point of
    the trimmed curve is a point of the old one between the cut and the end. *)
Theorem C29_trim_stays_on_curve c s u : fresh c -> (2 <= c_ndiv c)%nat -> incr (c_ss c) ->
  c_t0 c < c_t1 c -> 0 <= s < 1 -> 0 <= u <= 1 ->
  exists w, s <= w <= 1 /\ c_eval (set_start_on c s) u = c_eval c w.
Proof.
  intros F H I LT Hs Hu.
  assert (E1 : s2t c 1 = c_t1 c) by (apply C28_ends; assumption).
  assert (LT2 : s2t c s < c_t1 c) by (rewrite <- E1; apply C28_strictly_monotone; auto; lra).
  set (d := set_start_on c s).
  assert (Fd : fresh d) by apply set_start_fresh.
  assert (Nd : c_ndiv d = c_ndiv c) by (unfold d, set_start_on; rewrite update_ndiv; reflexivity).
  assert (T0 : c_t0 d = s2t c s) by (unfold d, set_start_on; rewrite update_t0; reflexivity).
  assert (T1 : c_t1 d = c_t1 c) by (unfold d, set_start_on; rewrite update_t1; reflexivity).
  assert (FN : c_fun d = c_fun c) by (unfold d, set_start_on; rewrite update_fun; reflexivity).
  pose proof (fresh_tab d Fd ltac:(lia)) as T.
  assert (B : exists t, c_eval d u = c_fun c t /\ s2t c s <= t <= c_t1 c).
  { assert (LTs : hd 0 (c_ss d) < last (c_ss d) 0)
      by (rewrite (tab_s0 _ _ _ _ _ T), (tab_s1 _ _ _ _ _ T); lra).
    destruct (segment_exists (c_ss d) u) as (j & J1 & J2 & J3); try apply T; auto.
    { rewrite (tab_s0 _ _ _ _ _ T), (tab_s1 _ _ _ _ _ T); lra. }
    assert (IT : incr (c_ts d)) by (apply fresh_ts_incr; auto; try lia; lra).
    rewrite (eval_seg _ _ _ d j u T FN Hu J1 J2 J3) || rewrite (eval_seg _ _ _ d j u T eq_refl Hu J1 J2 J3), FN.
    eexists. split; [reflexivity|].
    pose proof (tab_len _ _ _ _ _ T) as TL.
    pose proof (incr_nth (c_ts d) j (S j) IT ltac:(lia)) as TJ.
    pose proof (interpolate_bound u _ _ (nth j (c_ts d) 0) (nth (S j) (c_ts d) 0) J2 J3 ltac:(lra)) as IB.
    pose proof (nondec_nth (c_ts d) 0 j (incr_nondec _ IT) ltac:(lia)) as B0.
    pose proof (nondec_nth (c_ts d) (S j) (length (c_ts d) - 1) (incr_nondec _ IT) ltac:(lia)) as B1.
    rewrite <- hd_nth, (tab_t0 _ _ _ _ _ T), T0 in B0.
    rewrite <- last_nth, (tab_t1 _ _ _ _ _ T), T1 in B1. lra. }
  destruct B as (t & E & Bt). exists (t2s c t).
  assert (ST : s2t c (t2s c t) = t) by (apply C28_s2t_inverts_t2s; auto).
  split; [|rewrite E; unfold c_eval; rewrite ST; reflexivity].
  pose proof (C28_t2s_inverts_s2t c F H I LT) as INV.
  assert (E0 : s2t c 0 = c_t0 c) by (apply C28_ends; assumption).
  assert (Lo : c_t0 c <= s2t c s).
  { rewrite <- E0. destruct (Req_dec s 0); [subst; lra|].
    left. apply C28_strictly_monotone; auto; lra. }
  assert (R01 : 0 <= t2s c t <= 1).
  { pose proof (fresh_tab c F H) as Tc. pose proof (fresh_ts_incr c F H LT) as IT.
    unfold t2s. destruct (Rlt_dec t (c_t0 c)); [lra|]. destruct (Rlt_dec (c_t1 c) t); [lra|].
    assert (BB : hd 0 (c_ts c) <= t <= last (c_ts c) 0)
      by (rewrite (tab_t0 _ _ _ _ _ Tc), (tab_t1 _ _ _ _ _ Tc); lra).
    rewrite np_interp_in by exact BB.
    destruct (scan_inverse (c_ts c) (c_ss c) t) as [R' _]; auto.
    - symmetry. apply Tc.
    - rewrite <- (tab_len _ _ _ _ _ Tc). apply Tc.
    - rewrite (tab_s0 _ _ _ _ _ Tc), (tab_s1 _ _ _ _ _ Tc) in R'. exact R'. }
  split; [|lra]. destruct (Rle_dec s (t2s c t)); [assumption|exfalso].
  pose proof (C28_strictly_monotone c F H I LT (t2s c t) s ltac:(lra) ltac:(lra) ltac:(lra)). lra.
Qed.
Example C29_trim_stays_on_curve_example :
  exists w, 1 / 4 <= w <= 1 /\ c_eval (set_start_on sq_curve (1 / 4)) (1 / 3) = c_eval sq_curve w.
Proof. apply C29_trim_stays_on_curve; [apply sq_fresh|simpl; lia|apply sq_incr|simpl; lra|lra|lra]. Qed.

Example C29_example : c_eval (set_start_on sq_curve (1 / 4)) 0 = V (1 / 4) 0 0.
Proof.
  destruct (C29_set_start_on sq_curve (1 / 4) sq_fresh ltac:(simpl; lia)) as [-> _].
  unfold c_eval. destruct C28_example as [-> _]. apply vec_eq; simpl; field.
Qed.

(** ** C30 *)
Definition is_nurb (c : curve) : Prop := exists p w, c_shape c = SNurb p w.
Lemma is_nurb_dec c : {is_nurb c} + {~ is_nurb c}.
Proof.
  unfold is_nurb. destruct (c_shape c); try (right; intros (p & w & E); discriminate).
  left; eauto.
Qed.

Theorem C30_involution c : c_reverse (c_reverse c) = c.
Proof.
  destruct c as [sh act t0 t1 n len ts ss]. destruct sh; unfold c_reverse; cbn;
    rewrite ?rev_involutive; reflexivity.
Qed.

Lemma reverse_tab f c : tab_ok f (c_t0 c) (c_t1 c) (c_ss c) (c_ts c) -> ~ is_nurb c ->
  c_shape (c_reverse c) = c_shape c /\ c_t0 (c_reverse c) = c_t1 c /\ c_t1 (c_reverse c) = c_t0 c /\
  c_ndiv (c_reverse c) = c_ndiv c /\ c_ts (c_reverse c) = rev (c_ts c) /\ c_act (c_reverse c) = c_act c.
Proof.
  intros T NN. unfold c_reverse. destruct (c_shape c) eqn:E; cbn; auto 10.
  exfalso. apply NN. unfold is_nurb. rewrite E. eauto.
Qed.

(** A reversed curve starts at the old end and ends at the old start even without refreshing. *)
Theorem C30_swaps_ends c : fresh c -> (2 <= c_ndiv c)%nat -> ~ is_nurb c -> incr (c_ss c) ->
  c_eval (c_reverse c) 0 = c_eval c 1 /\ c_eval (c_reverse c) 1 = c_eval c 0.
Proof.
  intros F H NN I. pose proof (fresh_tab c F H) as T.
  destruct (reverse_tab _ c T NN) as (E1 & E2 & E3 & E4 & E5 & E6).
  assert (SS : c_ss (c_reverse c) = c_ss c) by (unfold c_reverse; destruct (c_shape c); reflexivity).
  assert (FN : c_fun (c_reverse c) = c_fun c) by (unfold c_fun; rewrite E1; reflexivity).
  assert (LR : length (rev (c_ts c)) = length (c_ss c)) by (rewrite rev_length; symmetry; apply T).
  rewrite (fresh_start c F H), (fresh_end c F H).
  pose proof (tab_two _ _ _ _ _ T) as TT. pose proof (tab_len _ _ _ _ _ T) as TL.
  assert (S0 : nth 0 (c_ss c) 0 = 0) by (rewrite <- hd_nth; apply T).
  assert (S1 : nth (length (c_ss c) - 1) (c_ss c) 0 = 1) by (rewrite <- last_nth; apply T).
  assert (BB : hd 0 (c_ss c) = 0 /\ last (c_ss c) 0 = 1) by (split; apply T).
  destruct BB as [B0 B1].
  unfold c_eval. rewrite FN, !s2t_in by lra. rewrite SS, E5, !np_interp_in by (rewrite B0, B1; lra).
  split; f_equal.
  - rewrite <- S0 at 1. rewrite scan_node by (auto; lia). rewrite rev_nth' by lia.
    rewrite Nat.sub_0_r, <- last_nth. apply T.
  - rewrite <- S1 at 1. rewrite scan_node by (auto; lia). rewrite rev_nth' by lia.
    replace (length (c_ts c) - 1 - (length (c_ss c) - 1))%nat with 0%nat by lia.
    rewrite <- hd_nth. apply T.
Qed.
Example C30_swaps_ends_example :
  c_eval (c_reverse sq_curve) 0 = c_eval sq_curve 1 /\ c_eval (c_reverse sq_curve) 1 = c_eval sq_curve 0.
Proof. apply C30_swaps_ends; [apply sq_fresh|simpl; lia|intros [? [? H]]; discriminate H|apply sq_incr]. Qed.

(** Table of the refreshed reverse, entry by entry. *)
Lemma reverse_entries c : fresh c -> (2 <= c_ndiv c)%nat -> ~ is_nurb c ->
  let d := update_lengths (c_reverse c) in
  length (c_ss d) = length (c_ss c) /\
  (forall i, (i < length (c_ss c))%nat ->
     nth i (c_ss d) 0 = 1 - nth (length (c_ss c) - 1 - i) (c_ss c) 0 /\
     nth i (c_ts d) 0 = nth (length (c_ss c) - 1 - i) (c_ts c) 0).
Proof.
  intros F H NN d. pose proof (fresh_tab c F H) as T.
  destruct (reverse_tab _ c T NN) as (E1 & E2 & E3 & E4 & E5 & E6).
  unfold d, update_lengths. rewrite E1, E2, E3, E4.
  unfold c_fun. rewrite E1.
  destruct (c_shape c) eqn:ESH.
  2:{ destruct (fresh_line _ _ _ F ESH) as (TS & SS & _). cbn [c_ss c_ts]. rewrite TS, SS.
      split; [reflexivity|]. intros i Hi. simpl in Hi.
      destruct i as [|[|i]]; [simpl; split; [ring|reflexivity]|simpl; split; [ring|reflexivity]|lia]. }
  2:{ destruct (fresh_arc _ _ _ _ _ F ESH) as (TS & SS & _). cbn [c_ss c_ts]. rewrite TS, SS.
      split; [reflexivity|]. intros i Hi. simpl in Hi.
      destruct i as [|[|i]]; [simpl; split; [ring|reflexivity]|simpl; split; [ring|reflexivity]|lia]. }
  2:{ exfalso. apply NN. unfold is_nurb. rewrite ESH. eauto. }
  rewrite shape_fun_gen. clear d.
  destruct (fresh_gen c f F ESH) as (TS & _ & SS).
  cbn [c_ss c_ts].
  rewrite <- (linspace_rev (c_t0 c) (c_t1 c)) by exact H.
  rewrite map_rev, polylen_rev_last.
  set (n := c_ndiv c) in *. set (ts := linspace (c_t0 c) (c_t1 c) n) in *.
  set (cl := polylen 0 (map f ts)) in *.
  assert (Lts : length ts = n) by apply linspace_length.
  assert (Lcl : length cl = n) by (unfold cl; rewrite polylen_length, map_length; exact Lts).
  rewrite SS, TS.
  destruct (Req_EM_T (last cl 0) 0) as [E|E].
  - split; [reflexivity|]. intros i Hi. rewrite linspace_length in Hi |- *.
    split.
    + rewrite !linspace_nth by lia. rewrite !minus_INR by lia.
      pose proof (INR_pos_2 n H) as P. rewrite minus_INR in P by lia. field. simpl in *. lra.
    + rewrite rev_nth' by lia. rewrite Lts. reflexivity.
  - split; [rewrite !map_length, polylen_length, rev_length, map_length; lia|].
    intros i Hi. rewrite map_length, Lcl in Hi. rewrite map_length, Lcl.
    split.
    + rewrite nth_map_fun by (rewrite polylen_length, rev_length, map_length; lia).
      rewrite polylen_rev by (rewrite map_length; lia). fold cl.
      rewrite map_length, Lts. rewrite nth_map_fun by lia. field. exact E.
    + rewrite rev_nth' by lia. rewrite Lts. reflexivity.
Qed.

(** After refreshing the table the reversed curve at s is the original at 1-s: on the whole of
    [0,1] for every curve, degenerate samples included. *)
Theorem C30_reverse_refreshed c : fresh c -> (2 <= c_ndiv c)%nat -> ~ is_nurb c ->
  forall s, 0 <= s <= 1 -> c_eval (update_lengths (c_reverse c)) s = c_eval c (1 - s).
Proof.
  intros F H NN s Hs. pose proof (fresh_tab c F H) as T.
  destruct (reverse_tab _ c T NN) as (E1 & E2 & E3 & E4 & E5 & E6).
  set (d := update_lengths (c_reverse c)).
  assert (Fd : fresh d) by apply update_fresh.
  assert (Nd : c_ndiv d = c_ndiv c) by (unfold d; rewrite update_ndiv; exact E4).
  assert (FN : c_fun d = c_fun c) by (unfold d; rewrite update_fun; unfold c_fun; rewrite E1; reflexivity).
  pose proof (fresh_tab d Fd ltac:(lia)) as Td.
  destruct (reverse_entries c F H NN) as [LEN ENT]. fold d in LEN, ENT.
  pose proof (tab_two _ _ _ _ _ T) as N2.
  assert (LTs : hd 0 (c_ss c) < last (c_ss c) 0)
      by (rewrite (tab_s0 _ _ _ _ _ T), (tab_s1 _ _ _ _ _ T); lra).
  destruct (segment_exists (c_ss c) (1 - s)) as (j & J1 & J2 & J3); try apply T; auto.
  { rewrite (tab_s0 _ _ _ _ _ T), (tab_s1 _ _ _ _ _ T); lra. }
  rewrite (eval_seg _ _ _ c j (1 - s) T eq_refl ltac:(lra) J1 J2 J3).
  set (n := length (c_ss c)) in *.
  set (k := (n - 2 - j)%nat).
  destruct (ENT k ltac:(unfold k; lia)) as [A1 A2].
  destruct (ENT (S k) ltac:(unfold k; lia)) as [B1 B2].
  replace (n - 1 - k)%nat with (S j) in A1, A2 by (unfold k; lia).
  replace (n - 1 - S k)%nat with j in B1, B2 by (unfold k; lia).
  rewrite (eval_seg _ _ _ d k s Td eq_refl Hs) by (rewrite ?A1, ?B1; unfold k; try lia; lra).
  rewrite FN. f_equal. rewrite A1, A2, B1, B2. unfold interpolate. field. lra.
Qed.
Example C30_reverse_refreshed_example :
  c_eval (update_lengths (c_reverse sq_curve)) (1 / 4) = c_eval sq_curve (1 - 1 / 4).
Proof. apply C30_reverse_refreshed; [apply sq_fresh|simpl; lia|intros [? [? H]]; discriminate H|lra]. Qed.

(** ... and beyond [0,1] too when the table is strictly increasing. *)
Theorem C30_reverse_refreshed_extrapolated c : fresh c -> (2 <= c_ndiv c)%nat -> ~ is_nurb c ->
  incr (c_ss c) -> forall s, c_eval (update_lengths (c_reverse c)) s = c_eval c (1 - s).
Proof.
  intros F H NN I s.
  destruct (Rlt_dec s 0) as [A|A]; [|destruct (Rlt_dec 1 s) as [B|B]].
  3: apply C30_reverse_refreshed; auto; lra.
  all: pose proof (fresh_tab c F H) as T;
    destruct (reverse_tab _ c T NN) as (E1 & E2 & E3 & E4 & E5 & E6);
    set (d := update_lengths (c_reverse c));
    assert (FN : c_fun d = c_fun c) by (unfold d; rewrite update_fun; unfold c_fun; rewrite E1; reflexivity);
    destruct (reverse_entries c F H NN) as [LEN ENT]; fold d in LEN, ENT;
    pose proof (tab_two _ _ _ _ _ T) as N2;
    unfold c_eval; rewrite FN; f_equal; unfold s2t; rewrite LEN;
    set (n := length (c_ss c)) in *.
  - destruct (Rlt_dec s 0); [|lra]. destruct (Rlt_dec (1 - s) 0); [lra|].
    destruct (Rlt_dec 1 (1 - s)); [|lra].
    destruct (ENT 0%nat ltac:(lia)) as [-> ->]. destruct (ENT 1%nat ltac:(lia)) as [-> ->].
    rewrite Nat.sub_0_r. replace (n - 1 - 1)%nat with (n - 2)%nat by lia.
    pose proof (incr_nth (c_ss c) (n - 2) (n - 1) I ltac:(unfold n in *; lia)).
    unfold interpolate. field. lra.
  - destruct (Rlt_dec s 0); [lra|]. destruct (Rlt_dec 1 s); [|lra].
    destruct (Rlt_dec (1 - s) 0); [|lra].
    destruct (ENT (n - 1)%nat ltac:(lia)) as [-> ->]. destruct (ENT (n - 2)%nat ltac:(lia)) as [-> ->].
    replace (n - 1 - (n - 1))%nat with 0%nat by lia. replace (n - 1 - (n - 2))%nat with 1%nat by lia.
    pose proof (incr_nth (c_ss c) 0 1 I ltac:(unfold n in *; lia)).
    unfold interpolate. field. lra.
Qed.
Example C30_reverse_refreshed_extrapolated_example :
  c_eval (update_lengths (c_reverse sq_curve)) 2 = c_eval sq_curve (1 - 2).
Proof.
  apply C30_reverse_refreshed_extrapolated; [apply sq_fresh|simpl; lia|intros [? [? H]]; discriminate H|apply sq_incr].
Qed.

(** Straight lines and arcs need no refresh. *)
Theorem C30_reverse_line_arc c s : fresh c ->
  (exists p q, c_shape c = SLine p q) \/ (exists r a ce m, c_shape c = SArc r a ce m) ->
  c_eval (c_reverse c) s = c_eval c (1 - s).
Proof.
  intros F K.
  assert (T2 : c_ss c = [0; 1] /\ c_ts c = [c_t0 c; c_t1 c]).
  { destruct K as [(p & q & E)|(r & a & ce & m & E)];
      [destruct (fresh_line _ _ _ F E) as (? & ? & _)|destruct (fresh_arc _ _ _ _ _ F E) as (? & ? & _)]; auto. }
  destruct T2 as [SS TS].
  assert (RV : c_shape (c_reverse c) = c_shape c /\ c_t0 (c_reverse c) = c_t1 c /\
     c_t1 (c_reverse c) = c_t0 c /\ c_ss (c_reverse c) = [0; 1] /\
     c_ts (c_reverse c) = [c_t1 c; c_t0 c]).
  { destruct K as [(p & q & E)|(r & a & ce & m & E)]; unfold c_reverse; rewrite E; cbn;
      rewrite SS, TS; auto 10. }
  destruct RV as (R1 & R2 & R3 & R4 & R5).
  unfold c_eval, c_fun. rewrite R1. f_equal.
  rewrite (s2t_two_points (c_reverse c)) by (rewrite ?R2, ?R3; assumption).
  rewrite (s2t_two_points c) by assumption. rewrite R2, R3. ring.
Qed.
Example C30_reverse_line_arc_example :
  c_eval (c_reverse (line_curve RIGHT UP true)) (1 / 4) = c_eval (line_curve RIGHT UP true) (1 - 1 / 4).
Proof. apply C30_reverse_line_arc; [apply new_fresh|]. left. exists RIGHT, UP. reflexivity. Qed.

(** Without the refresh the statement fails: the s-table keeps its old order. *)
Theorem C30_reverse_unrefreshed_refuted : exists c s, fresh c /\ (2 <= c_ndiv c)%nat /\
  ~ is_nurb c /\ incr (c_ss c) /\ 0 <= s <= 1 /\ c_eval (c_reverse c) s <> c_eval c (1 - s).
Proof.
  exists sq_curve, (1 / 4). destruct sq_table as (SS & TS & _).
  split; [apply sq_fresh|]. split; [simpl; lia|]. split.
  { unfold is_nurb. intros (p & w & E). discriminate. }
  split; [rewrite SS; simpl; lra|]. split; [lra|].
  assert (A : c_eval (c_reverse sq_curve) (1 / 4) = V (1 / 2 * (1 / 2)) 0 0).
  { unfold c_eval. replace (s2t (c_reverse sq_curve) (1 / 4)) with (1 / 2); [reflexivity|].
    rewrite s2t_in by lra. unfold c_reverse. cbn [c_shape c_ss c_ts].
    replace (c_shape sq_curve) with (SGen (fun t => V (t * t) 0 0)) by reflexivity.
    cbn [c_ss c_ts]. rewrite SS, TS. unfold np_interp. cbn [rev app hd last interp_scan].
    repeat (destruct (Rlt_dec _ _); try lra). destruct (Req_EM_T (1/4) (1/4)); lra. }
  assert (B : s2t sq_curve (1 - 1 / 4) = 5 / 6).
  { rewrite s2t_in by lra. rewrite SS, TS. unfold np_interp. cbn [hd last interp_scan].
    repeat (destruct (Rlt_dec _ _); try lra). destruct (Req_EM_T (1 - 1/4) (1/4)); [lra|]. field. }
  rewrite A. unfold c_eval. rewrite B. intros E. apply (f_equal vx) in E. simpl in E. lra.
Qed.

(** NURB curves flip their points; exact for a curve on the full parameter range... *)
Lemma nurbezier_rev t pts ws : length pts = length ws -> pts <> [] ->
  nurbezier t (rev pts) (rev ws) = nurbezier (1 - t) pts ws.
Proof.
  intros L N. unfold nurbezier.
  assert (W : wpoints (rev pts) (rev ws) = rev (wpoints pts ws)).
  { clear N. revert ws L. induction pts as [|p l IH]; intros [|w ws] L; simpl in L; try lia; [reflexivity|].
    cbn [rev]. cbn [wpoints]. cbn [rev]. rewrite <- IH by lia.
    assert (A : forall a b c d, length a = length b -> wpoints (a ++ c) (b ++ d) = wpoints a b ++ wpoints c d).
    { clear. induction a; intros [|? ?] c d LL; simpl in LL; try lia; [reflexivity|]. simpl. rewrite IHa by lia. reflexivity. }
    rewrite A by (rewrite !rev_length; lia). reflexivity. }
  rewrite W, C16_reversal, bezierdc_R_rev; [reflexivity| |].
  - intros E. rewrite E in L. destruct pts; [congruence|simpl in L; lia].
  - intros E. apply (f_equal (@length vec)) in E. rewrite wpoints_length in E by exact L.
    destruct pts; [congruence|simpl in E; lia].
Qed.

Theorem C30_nurb_reverse_full_range pts ws t n act len ts ss :
  length pts = length ws -> pts <> [] ->
  c_fun (c_reverse (mkCurve (SNurb pts ws) act 0 1 n len ts ss)) t =
  c_fun (mkCurve (SNurb pts ws) act 0 1 n len ts ss) (1 - t).
Proof. intros. unfold c_fun, c_reverse. cbn [c_shape shape_fun]. apply nurbezier_rev; assumption. Qed.
Example C30_nurb_reverse_full_range_example :
  let c := mkCurve (SNurb [V 0 0 0; V 1 2 0; V 3 0 1] [1; 1 / 2; 1]) true 0 1 5 2 [] [] in
  c_fun (c_reverse c) (1 / 3) = c_fun c (1 - 1 / 3).
Proof. intros c. apply C30_nurb_reverse_full_range; [reflexivity|discriminate]. Qed.

Theorem C30_nurb_reverse_ends pts ws : length pts = length ws -> pts <> [] ->
  let c := nurb_curve pts ws true in
  let d := update_lengths (c_reverse c) in
  c_eval d 0 = c_eval c 1 /\ c_eval d 1 = c_eval c 0.
Proof.
  intros L N c d.
  assert (Fd : fresh d) by apply update_fresh. assert (Fc : fresh c) by apply new_fresh.
  assert (Nd : (2 <= c_ndiv d)%nat) by (unfold d; rewrite update_ndiv; cbn; unfold NDIV; lia).
  assert (Nc : (2 <= c_ndiv c)%nat) by (cbn; unfold NDIV; lia).
  rewrite (fresh_start d Fd Nd), (fresh_end d Fd Nd), (fresh_start c Fc Nc), (fresh_end c Fc Nc).
  unfold d. rewrite update_fun, update_t0, update_t1.
  unfold c_fun. cbn. unfold c_fun in *. cbn. rewrite !nurbezier_rev by assumption.
  split; f_equal; ring.
Qed.
Example C30_nurb_reverse_ends_example :
  let c := nurb_curve [V 0 0 0; V 1 2 0; V 3 0 1] [1; 1 / 2; 1] true in
  let d := update_lengths (c_reverse c) in c_eval d 0 = c_eval c 1 /\ c_eval d 1 = c_eval c 0.
Proof. apply C30_nurb_reverse_ends; [reflexivity|discriminate]. Qed.

Lemma scan_flip x xp fp : length xp = length fp -> fp <> [] ->
  interp_scan x xp (map (fun t => 1 - t) fp) = 1 - interp_scan x xp fp.
Proof.
  revert fp. induction xp as [|x0 xs IH]; intros fp L N; destruct fp as [|y0 ys];
    try (simpl in L; lia); [congruence|].
  destruct xs as [|x1 xs], ys as [|y1 ys]; try (simpl in L; lia); [simpl; ring|].
  cbn [map]. rewrite !scan_cons2. destruct (Rlt_dec x x1).
  - destruct (Req_EM_T x x0); [ring|]. unfold Rdiv. ring.
  - apply (IH (y1 :: ys)); [simpl in *; lia|discriminate].
Qed.

Theorem C30_nurb_reverse_refreshed pts ws s : length pts = length ws -> pts <> [] -> 0 <= s <= 1 ->
  let c := nurb_curve pts ws true in
  c_eval (update_lengths (c_reverse c)) s = c_eval c (1 - s).
Proof.
  intros L N Hs c.
  pose (g := new_curve (SGen (fun t => nurbezier t pts ws)) true 0 1 NDIV).
  assert (Hn : (2 <= NDIV)%nat) by (unfold NDIV; lia).
  transitivity (c_eval g (1 - s)); [|reflexivity].
  rewrite <- C30_reverse_refreshed; [|apply new_fresh|exact Hn| |exact Hs].
  2:{ intros (p & w & E). discriminate. }
  pose (f := fun t => nurbezier t pts ws). pose (f' := fun t => nurbezier t (rev pts) (rev ws)).
  assert (LS : linspace 1 0 NDIV = map (fun t => 1 - t) (linspace 0 1 NDIV)).
  { apply list_ext; [rewrite map_length, !linspace_length; reflexivity|].
    intros i Hi. rewrite linspace_length in Hi.
    rewrite nth_map_fun by (rewrite linspace_length; lia). rewrite !linspace_nth by lia.
    field. pose proof (INR_pos_2 NDIV Hn). lra. }
  assert (LM : map f (linspace 1 0 NDIV) = map f' (linspace 0 1 NDIV)).
  { rewrite LS, map_map. apply map_ext. intros t. unfold f, f'.
    rewrite nurbezier_rev by assumption. reflexivity. }
  set (cl := polylen 0 (map f' (linspace 0 1 NDIV))).
  set (ss := if Req_EM_T (last cl 0) 0 then linspace 0 1 NDIV else map (fun x => x / last cl 0) cl).
  set (d := update_lengths (c_reverse c)). set (e := update_lengths (c_reverse g)).
  assert (D1 : c_ss d = ss) by reflexivity.
  assert (D2 : c_ts d = linspace 0 1 NDIV) by reflexivity.
  assert (D3 : forall t, c_fun d t = f' t) by reflexivity.
  assert (E2 : c_ts e = linspace 1 0 NDIV) by reflexivity.
  assert (E1 : c_ss e = ss).
  { unfold ss, cl. rewrite <- LM. reflexivity. }
  assert (E3 : forall t, c_fun e t = f t) by reflexivity.
  clearbody d e. unfold c_eval. rewrite D3, E3, !s2t_in by exact Hs.
  rewrite D1, D2, E1, E2, LS.
  pose proof (tab_sampled f' 0 1 NDIV Hn) as T. cbv zeta in T. fold cl in T. fold ss in T.
  rewrite !np_interp_in by (rewrite (tab_s0 _ _ _ _ _ T), (tab_s1 _ _ _ _ _ T); exact Hs).
  rewrite scan_flip; [|apply T|].
  - unfold f, f'. apply nurbezier_rev; assumption.
  - intros E0. pose proof (linspace_length 0 1 NDIV) as LL. rewrite E0 in LL. discriminate.
Qed.
Example C30_nurb_reverse_refreshed_example :
  let c := nurb_curve [V 0 0 0; V 1 2 0; V 3 0 1] [1; 1 / 2; 1] true in
  c_eval (update_lengths (c_reverse c)) (1 / 3) = c_eval c (1 - 1 / 3).
Proof. apply C30_nurb_reverse_refreshed; [reflexivity|discriminate|lra]. Qed.

(** ... but a trimmed NURB curve keeps its parameter range, so the reversed curve is another piece. *)
Theorem C30_nurb_reverse_trimmed_refuted : exists c, fresh c /\ is_nurb c /\ (2 <= c_ndiv c)%nat /\
  c_eval (update_lengths (c_reverse c)) 0 <> c_eval c 1.
Proof.
  pose (c0 := mkCurve (SNurb [ORIGIN; RIGHT] [1; 1]) true 0 (1 / 4) 3 0 [] []).
  exists (update_lengths c0). split; [apply update_fresh|].
  split; [unfold is_nurb; rewrite update_shape; simpl; eauto|].
  split; [rewrite update_ndiv; simpl; lia|].
  rewrite fresh_start by (try apply update_fresh; simpl; lia).
  rewrite fresh_end by (try apply update_fresh; simpl; lia).
  rewrite update_fun, update_t0. cbn. unfold c_fun. cbn.
  intros E. apply (f_equal vx) in E. unfold nurbezier, bezierdc in E. cbn in E. lra.
Qed.

(** ** C31 *)
Lemma new_eval_ends f t0 t1 n : (2 <= n)%nat ->
  c_eval (new_curve (SGen f) true t0 t1 n) 0 = f t0 /\
  c_eval (new_curve (SGen f) true t0 t1 n) 1 = f t1.
Proof.
  intros H. pose proof (new_fresh (SGen f) t0 t1 n) as F.
  rewrite fresh_start, fresh_end by (try exact F; simpl; exact H). split; reflexivity.
Qed.

Theorem C31_sum_ends a b : c_act a = true -> c_act b = true ->
  c_eval (c_add a b) 0 = vadd (c_eval a 0) (c_eval b 0) /\
  c_eval (c_add a b) 1 = vadd (c_eval a 1) (c_eval b 1).
Proof.
  intros A B. unfold c_add. rewrite A, B. cbn [andb].
  apply (new_eval_ends (fun t => vadd (c_eval a t) (c_eval b t))). unfold NDIV. lia.
Qed.
Theorem C31_difference_ends a b : c_act a = true -> c_act b = true ->
  c_eval (c_sub a b) 0 = vsub (c_eval a 0) (c_eval b 0) /\
  c_eval (c_sub a b) 1 = vsub (c_eval a 1) (c_eval b 1).
Proof.
  intros A B. unfold c_sub. rewrite A, B. cbn [andb].
  apply (new_eval_ends (fun t => vsub (c_eval a t) (c_eval b t))). unfold NDIV. lia.
Qed.
Example C31_difference_ends_example :
  let l := line_curve RIGHT UP true in
  c_eval (c_sub sq_curve l) 0 = vsub (c_eval sq_curve 0) (c_eval l 0)
  /\ c_eval (c_sub sq_curve l) 1 = vsub (c_eval sq_curve 1) (c_eval l 1).
Proof. intros l. apply C31_difference_ends; reflexivity. Qed.
Theorem C31_product_ends a k : c_act a = true ->
  c_eval (c_mul a k) 0 = smul k (c_eval a 0) /\ c_eval (c_mul a k) 1 = smul k (c_eval a 1).
Proof.
  intros A. unfold c_mul. rewrite A.
  apply (new_eval_ends (fun t => smul k (c_eval a t))). unfold NDIV. lia.
Qed.
Example C31_product_ends_example :
  c_eval (c_mul sq_curve 3) 0 = smul 3 (c_eval sq_curve 0) /\ c_eval (c_mul sq_curve 3) 1 = smul 3 (c_eval sq_curve 1).
Proof. apply C31_product_ends. reflexivity. Qed.

(** Every value of a sum is a sum of values at one common parameter in [0,1]. *)
Lemma sampled_range f s n : (2 <= n)%nat -> 0 <= s <= 1 ->
  exists u, 0 <= u <= 1 /\ c_eval (new_curve (SGen f) true 0 1 n) s = f u.
Proof.
  intros H Hs. set (c := new_curve (SGen f) true 0 1 n).
  assert (F : fresh c) by apply new_fresh.
  pose proof (fresh_tab c F H) as T. pose proof (fresh_ts_incr c F H ltac:(simpl; lra)) as IT.
  assert (LT : hd 0 (c_ss c) < last (c_ss c) 0)
    by (rewrite (tab_s0 _ _ _ _ _ T), (tab_s1 _ _ _ _ _ T); lra).
  destruct (segment_exists (c_ss c) s) as (j & J1 & J2 & J3); try apply T; auto.
  { rewrite (tab_s0 _ _ _ _ _ T), (tab_s1 _ _ _ _ _ T); lra. }
  rewrite (eval_seg _ _ _ c j s T eq_refl Hs J1 J2 J3).
  eexists. split; [|reflexivity].
  pose proof (tab_len _ _ _ _ _ T) as TL.
  pose proof (incr_nth (c_ts c) j (S j) IT ltac:(lia)) as TJ.
  pose proof (interpolate_bound s _ _ (nth j (c_ts c) 0) (nth (S j) (c_ts c) 0) J2 J3 ltac:(lra)) as IB.
  pose proof (nondec_nth (c_ts c) 0 j (incr_nondec _ IT) ltac:(lia)) as B0.
  pose proof (nondec_nth (c_ts c) (S j) (length (c_ts c) - 1) (incr_nondec _ IT) ltac:(lia)) as B1.
  rewrite <- hd_nth, (tab_t0 _ _ _ _ _ T) in B0.
  rewrite <- last_nth, (tab_t1 _ _ _ _ _ T) in B1.
  change (c_t0 c) with 0 in B0. change (c_t1 c) with 1 in B1. lra.
Qed.

Theorem C31_values a b k s : c_act a = true -> c_act b = true -> 0 <= s <= 1 ->
  (exists u, 0 <= u <= 1 /\ c_eval (c_add a b) s = vadd (c_eval a u) (c_eval b u)) /\
  (exists u, 0 <= u <= 1 /\ c_eval (c_sub a b) s = vsub (c_eval a u) (c_eval b u)) /\
  (exists u, 0 <= u <= 1 /\ c_eval (c_mul a k) s = smul k (c_eval a u)).
Proof.
  intros A B Hs. unfold c_add, c_sub, c_mul. rewrite A, B. cbn [andb].
  split; [|split].
  - apply (sampled_range (fun u => vadd (c_eval a u) (c_eval b u))); [unfold NDIV; lia|exact Hs].
  - apply (sampled_range (fun u => vsub (c_eval a u) (c_eval b u))); [unfold NDIV; lia|exact Hs].
  - apply (sampled_range (fun u => smul k (c_eval a u))); [unfold NDIV; lia|exact Hs].
Qed.
Example C31_values_example :
  exists u, 0 <= u <= 1 /\ c_eval (c_mul sq_curve 3) (1 / 5) = smul 3 (c_eval sq_curve u).
Proof. apply (C31_values sq_curve sq_curve 3 (1 / 5)); [reflexivity|reflexivity|lra]. Qed.

Theorem C31_quotient_ends a k : c_act a = true ->
  c_eval (c_div a k) 0 = smul (/ k) (c_eval a (c_t0 a)) /\
  c_eval (c_div a k) 1 = smul (/ k) (c_eval a (c_t1 a)).
Proof.
  intros A. unfold c_div. rewrite A.
  apply (new_eval_ends (fun t => smul (/ k) (c_eval a t))). unfold NDIV. lia.
Qed.
Example C31_quotient_ends_example :
  let c := new_curve (SGen (fun t => V t 0 0)) true 1 3 5 in
  c_eval (c_div c 2) 0 = smul (/ 2) (c_eval c 1) /\ c_eval (c_div c 2) 1 = smul (/ 2) (c_eval c 3).
Proof. intros c. apply (C31_quotient_ends c 2). reflexivity. Qed.
Theorem C31_quotient_ends_unit_range a k : c_act a = true -> c_t0 a = 0 -> c_t1 a = 1 ->
  c_eval (c_div a k) 0 = smul (/ k) (c_eval a 0) /\ c_eval (c_div a k) 1 = smul (/ k) (c_eval a 1).
Proof. intros A E0 E1. destruct (C31_quotient_ends a k A) as [-> ->]. rewrite E0, E1. auto. Qed.
Example C31_quotient_ends_unit_range_example :
  c_eval (c_div sq_curve 2) 0 = smul (/ 2) (c_eval sq_curve 0) /\ c_eval (c_div sq_curve 2) 1 = smul (/ 2) (c_eval sq_curve 1).
Proof. apply C31_quotient_ends_unit_range; reflexivity. Qed.

(** Dividing a trimmed line: the start is not the divided start. *)
Theorem C31_quotient_refuted : exists a k, fresh a /\ c_act a = true /\ k <> 0 /\
  c_eval (c_div a k) 0 <> smul (/ k) (c_eval a 0).
Proof.
  pose (a := set_start_on (line_curve ORIGIN RIGHT true) (1 / 2)).
  exists a, 1. split; [apply set_start_fresh|]. split; [reflexivity|]. split; [lra|].
  destruct (C31_quotient_ends a 1 eq_refl) as [-> _].
  assert (T0 : s2t (line_curve ORIGIN RIGHT true) (1 / 2) = 1 / 2).
  { rewrite s2t_two_points by reflexivity. simpl. lra. }
  assert (EV : forall s, c_eval a s = V (1 / 2 + 1 / 2 * s) 0 0).
  { intros s. unfold c_eval. rewrite s2t_two_points by reflexivity.
    unfold a at 2 3 4, set_start_on, with_domain. rewrite T0.
    apply vec_eq; simpl; field. }
  rewrite !EV. unfold a, set_start_on, with_domain. rewrite T0. simpl.
  intros E. apply (f_equal vx) in E. simpl in E. lra.
Qed.

Example C31_example :
  c_eval (c_add sq_curve (line_curve RIGHT UP true)) 1 = V 1 1 0.
Proof.
  destruct (C31_sum_ends sq_curve (line_curve RIGHT UP true) eq_refl eq_refl) as [_ ->].
  rewrite (fresh_end sq_curve sq_fresh) by (simpl; lia).
  rewrite (fresh_end (line_curve RIGHT UP true)) by (try apply new_fresh; simpl; unfold NDIV; lia).
  apply vec_eq; simpl; ring.
Qed.

(** ** C32 *)
Lemma line_diff a b p0 p1 :
  vsub (vadd (smul (1 - a) p0) (smul a p1)) (vadd (smul (1 - b) p0) (smul b p1)) = smul (a - b) (vsub p1 p0).
Proof. vec_ring. Qed.

(** Any line object however trimmed or reversed: evaluation, length and arc length. *)
Theorem C32_evaluation c p0 p1 s : fresh c -> c_shape c = SLine p0 p1 ->
  c_eval c s = vadd (smul (1 - s) (c_eval c 0)) (smul s (c_eval c 1)).
Proof.
  intros F E.
  assert (T2 : c_ss c = [0; 1] /\ c_ts c = [c_t0 c; c_t1 c])
    by (destruct (fresh_line _ _ _ F E) as (? & ? & _); auto).
  destruct T2 as [SS TS]. unfold c_eval, c_fun. rewrite E. cbn [shape_fun].
  rewrite !s2t_two_points by assumption. vec_ring.
Qed.
Example C32_evaluation_example :
  let l := line_curve (V 1 2 3) (V 4 0 1) true in
  c_eval l 5 = vadd (smul (1 - 5) (c_eval l 0)) (smul 5 (c_eval l 1)).
Proof. intros l. apply (C32_evaluation l (V 1 2 3) (V 4 0 1)); [apply new_fresh|reflexivity]. Qed.

Theorem C32_ends p0 p1 : c_eval (line_curve p0 p1 true) 0 = p0 /\ c_eval (line_curve p0 p1 true) 1 = p1.
Proof.
  rewrite fresh_start, fresh_end by (try apply new_fresh; simpl; unfold NDIV; lia).
  cbn. unfold c_fun. cbn. split; vec_ring.
Qed.

Theorem C32_length_is_distance c p0 p1 : fresh c -> c_shape c = SLine p0 p1 ->
  c_length c = norm (vsub (c_eval c 1) (c_eval c 0)).
Proof.
  intros F E.
  assert (T2 : c_ss c = [0; 1] /\ c_ts c = [c_t0 c; c_t1 c] /\
    c_length c = norm (vsub p1 p0) * Rabs (c_t1 c - c_t0 c))
    by (destruct (fresh_line _ _ _ F E) as (? & ? & ?); auto).
  destruct T2 as (SS & TS & ->). unfold c_eval, c_fun. rewrite E. cbn [shape_fun].
  rewrite !s2t_two_points by assumption.
  rewrite line_diff, norm_smul, Rmult_comm. f_equal. f_equal. ring.
Qed.
Example C32_length_is_distance_example :
  let l := set_start_on (line_curve (V 1 2 3) (V 4 0 1) true) (1 / 3) in
  c_length l = norm (vsub (c_eval l 1) (c_eval l 0)).
Proof.
  intros l. apply (C32_length_is_distance l (V 1 2 3) (V 4 0 1)); [apply set_start_fresh|reflexivity].
Qed.

Theorem C32_arc_length c p0 p1 s : fresh c -> c_shape c = SLine p0 p1 -> 0 <= s ->
  norm (vsub (c_eval c s) (c_eval c 0)) = s * c_length c.
Proof.
  intros F E Hs. rewrite (C32_length_is_distance c p0 p1 F E).
  rewrite (C32_evaluation c p0 p1 s F E).
  generalize (c_eval c 1) (c_eval c 0). intros q p.
  replace (vsub (vadd (smul (1 - s) p) (smul s q)) p) with (smul s (vsub q p)) by vec_ring.
  rewrite norm_smul, Rabs_right by lra. reflexivity.
Qed.
Example C32_arc_length_example :
  let l := line_curve (V 1 2 3) (V 4 0 1) true in norm (vsub (c_eval l 2) (c_eval l 0)) = 2 * c_length l.
Proof. intros l. apply (C32_arc_length l (V 1 2 3) (V 4 0 1)); [apply new_fresh|reflexivity|lra]. Qed.

(** Trimming a line scales its length by the kept share. *)
Theorem C32_trim_length c p0 p1 s u : fresh c -> c_shape c = SLine p0 p1 -> s <= u ->
  let d := set_start_and_end_on c s u in
  c_length d = (u - s) * c_length c /\ c_shape d = SLine p0 p1 /\ fresh d.
Proof.
  intros F E SU d.
  assert (FD : fresh d) by apply set_both_fresh.
  assert (ED : c_shape d = SLine p0 p1) by (unfold d, set_start_and_end_on; rewrite update_shape; exact E).
  split; [|split; assumption].
  rewrite (C32_length_is_distance d p0 p1 FD ED), (C32_length_is_distance c p0 p1 F E).
  assert (T2 : c_ss c = [0; 1] /\ c_ts c = [c_t0 c; c_t1 c])
    by (destruct (fresh_line _ _ _ F E) as (? & ? & _); auto).
  destruct T2 as [SS TS].
  assert (U : d = update_lengths (with_domain c (s2t c s) (s2t c u))) by reflexivity.
  assert (T2' : c_ss d = [0; 1] /\ c_ts d = [c_t0 d; c_t1 d] /\ c_t0 d = s2t c s /\ c_t1 d = s2t c u)
    by (rewrite U; unfold update_lengths; cbn [with_domain c_shape]; rewrite E; auto).
  destruct T2' as (SS' & TS' & D0 & D1).
  unfold c_eval, c_fun. rewrite E, ED. cbn [shape_fun].
  rewrite !(s2t_two_points d) by assumption. rewrite D0, D1.
  rewrite !(s2t_two_points c) by assumption.
  rewrite !line_diff, !norm_smul, <- Rmult_assoc. f_equal.
  rewrite <- (Rabs_right (u - s)) by lra. rewrite <- Rabs_mult. f_equal. ring.
Qed.

Example C32_example :
  c_length (set_start_and_end_on (line_curve ORIGIN (smul 4 RIGHT) true) (1 / 4) (3 / 4)) = 2.
Proof.
  destruct (C32_trim_length (line_curve ORIGIN (smul 4 RIGHT) true) ORIGIN (smul 4 RIGHT) (1/4) (3/4))
    as [-> _]; [apply new_fresh|reflexivity|lra|].
  cbn. replace (vsub _ _) with (V 4 0 0) by (apply vec_eq; vec_simpl; ring).
  rewrite norm_x, !Rabs_right by lra. lra.
Qed.
