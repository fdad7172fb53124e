(** Lemmas on the length tables of curves. *)
From Coq Require Import Reals Lra Lia Psatz List.
From Verif Require Import Num Vec Coords Bezier Interp Curve.
Import ListNotations.
Open Scope R_scope.

Lemma shape_fun_gen f : shape_fun (SGen f) = f.
Proof. reflexivity. Qed.

Lemma polylen_length a pts : length (polylen a pts) = length pts.
Proof.
  revert a. induction pts as [|p l IH]; intros a; [reflexivity|].
  destruct l as [|q l]; [reflexivity|].
  change (S (length (polylen (a + norm (vsub q p)) (q :: l))) = S (length (q :: l))).
  rewrite IH. reflexivity.
Qed.

Lemma polylen_0 a pts : pts <> [] -> nth 0 (polylen a pts) 0 = a.
Proof. destruct pts as [|p [|q l]]; [congruence|reflexivity|reflexivity]. Qed.

Lemma polylen_S a pts i : (S i < length pts)%nat ->
  nth (S i) (polylen a pts) 0 =
  nth i (polylen a pts) 0 + norm (vsub (nth (S i) pts ORIGIN) (nth i pts ORIGIN)).
Proof.
  revert a i. induction pts as [|p l IH]; intros a i H; [simpl in H; lia|].
  destruct l as [|q l]; [simpl in H; lia|].
  change (polylen a (p :: q :: l)) with (a :: polylen (a + norm (vsub q p)) (q :: l)).
  destruct i.
  - change (nth 1 (p :: q :: l) ORIGIN) with q. change (nth 0 (p :: q :: l) ORIGIN) with p.
    change (nth 1 (a :: polylen (a + norm (vsub q p)) (q :: l)) 0)
      with (nth 0 (polylen (a + norm (vsub q p)) (q :: l)) 0).
    rewrite polylen_0 by discriminate. reflexivity.
  - change (nth (S (S i)) (a :: ?x) 0) with (nth (S i) x 0).
    change (nth (S i) (a :: ?x) 0) with (nth i x 0).
    change (nth (S (S i)) (p :: q :: l) ORIGIN) with (nth (S i) (q :: l) ORIGIN).
    change (nth (S i) (p :: q :: l) ORIGIN) with (nth i (q :: l) ORIGIN).
    apply IH. simpl in *. lia.
Qed.

Lemma polylen_nondec a pts : nondec (polylen a pts).
Proof.
  apply nondec_intro. intros i Hi. rewrite polylen_length in Hi.
  rewrite polylen_S by lia. pose proof (norm_nonneg (vsub (nth (S i) pts ORIGIN) (nth i pts ORIGIN))).
  lra.
Qed.

Lemma polylen_last_nonneg pts : pts <> [] -> 0 <= last (polylen 0 pts) 0.
Proof.
  intros H. rewrite last_nth.
  rewrite <- (polylen_0 0 pts H) at 1. apply nondec_nth; [apply polylen_nondec|].
  rewrite polylen_length. destruct pts; [congruence|simpl; lia].
Qed.

(** Polyline length from the other end. *)
Lemma polylen_rev pts i : (i < length pts)%nat ->
  nth i (polylen 0 (rev pts)) 0 =
  last (polylen 0 pts) 0 - nth (length pts - 1 - i) (polylen 0 pts) 0.
Proof.
  intros H. induction i.
  - rewrite polylen_0 by (destruct pts; [simpl in H; lia|]; intros E;
      apply (f_equal (@length vec)) in E; rewrite rev_length in E; simpl in E; lia).
    rewrite last_nth, polylen_length, Nat.sub_0_r. ring.
  - rewrite polylen_S by (rewrite rev_length; lia). rewrite IHi by lia.
    rewrite !rev_nth' by lia.
    replace (length pts - 1 - i)%nat with (S (length pts - 1 - S i)) by lia.
    rewrite (polylen_S 0 pts (length pts - 1 - S i)) by lia.
    rewrite norm_vsub_sym. ring.
Qed.

Lemma polylen_rev_last pts : last (polylen 0 (rev pts)) 0 = last (polylen 0 pts) 0.
Proof.
  destruct pts as [|p l]; [reflexivity|].
  rewrite (last_nth (polylen 0 (rev (p :: l)))), polylen_length, rev_length.
  rewrite polylen_rev by (simpl; lia).
  replace (length (p :: l) - 1 - (length (p :: l) - 1))%nat with 0%nat by lia.
  rewrite polylen_0 by discriminate. ring.
Qed.

(** *** What a length table has to satisfy *)
Record tab_ok (f : R -> vec) (t0 t1 : R) (ss ts : list R) : Prop := {
  tab_len : length ss = length ts;
  tab_two : (2 <= length ss)%nat;
  tab_nondec : nondec ss;
  tab_s0 : hd 0 ss = 0;
  tab_s1 : last ss 0 = 1;
  tab_ties : ties f ss ts;
  tab_t0 : hd 0 ts = t0;
  tab_t1 : last ts 0 = t1 }.

Lemma tab_two_points f t0 t1 : tab_ok f t0 t1 [0; 1] [t0; t1].
Proof.
  constructor; try reflexivity; simpl; try lia; try lra.
  intros i Hi. destruct i; [simpl; lra|simpl in Hi; lia].
Qed.

Lemma nth_map_fun {A} (f : R -> A) l i d : (i < length l)%nat ->
  nth i (map f l) d = f (nth i l 0).
Proof.
  intros. rewrite nth_indep with (d' := f 0) by (rewrite map_length; lia). apply map_nth.
Qed.

Lemma tab_sampled f t0 t1 n : (2 <= n)%nat ->
  let ts := linspace t0 t1 n in
  let cl := polylen 0 (map f ts) in
  let len := last cl 0 in
  tab_ok f t0 t1 (if Req_EM_T len 0 then linspace 0 1 n else map (fun x => x / len) cl) ts.
Proof.
  intros Hn ts cl len.
  assert (Lts : length ts = n) by apply linspace_length.
  assert (Lcl : length cl = n) by (unfold cl; rewrite polylen_length, map_length; exact Lts).
  destruct (Req_EM_T len 0) as [E|E].
  - constructor.
    + rewrite linspace_length. auto.
    + rewrite linspace_length. lia.
    + apply incr_nondec, linspace_incr. lra.
    + apply linspace_hd; lia.
    + apply linspace_last; lia.
    + intros i Hi EQ. pose proof (incr_nth _ i (S i) (linspace_incr 0 1 n ltac:(lra)) ltac:(lia)). lra.
    + apply linspace_hd; lia.
    + apply linspace_last; lia.
  - assert (P : 0 < len).
    { assert (0 <= len); [|lra]. apply polylen_last_nonneg.
      intros H0. apply (f_equal (@length vec)) in H0. rewrite map_length in H0. simpl in H0. lia. }
    constructor.
    + rewrite map_length. lia.
    + rewrite map_length. lia.
    + apply nondec_map; [|apply polylen_nondec]. intros. unfold Rdiv.
      apply Rmult_le_compat_r; [left; apply Rinv_0_lt_compat; lra|lra].
    + rewrite hd_nth, nth_map_fun by lia. unfold cl. rewrite polylen_0; [unfold Rdiv; ring|].
      intros H0. apply (f_equal (@length vec)) in H0. rewrite map_length in H0. simpl in H0. lia.
    + rewrite last_nth, map_length, nth_map_fun by lia.
      rewrite <- last_nth. fold len. field. lra.
    + intros i Hi EQ. rewrite map_length in Hi. rewrite !nth_map_fun in EQ by lia.
      assert (EQ' : nth i cl 0 = nth (S i) cl 0).
      { apply Rmult_eq_reg_r with (/ len); [exact EQ|]. apply Rinv_neq_0_compat. lra. }
      unfold cl in EQ'. rewrite polylen_S in EQ' by (rewrite map_length; lia).
      assert (norm (vsub (nth (S i) (map f ts) ORIGIN) (nth i (map f ts) ORIGIN)) = 0) by lra.
      apply norm_zero in H. rewrite !nth_map_fun in H by lia.
      rewrite <- (vadd_vsub (f (nth (S i) ts 0)) (f (nth i ts 0))), H. symmetry. apply vadd_0_l.
    + apply linspace_hd; lia.
    + apply linspace_last; lia.
Qed.

Lemma update_tab c : (2 <= c_ndiv c)%nat ->
  tab_ok (c_fun c) (c_t0 c) (c_t1 c) (c_ss (update_lengths c)) (c_ts (update_lengths c)).
Proof.
  intros H. unfold update_lengths. destruct (c_shape c) eqn:E; cbn [c_ss c_ts].
  - apply tab_sampled, H.
  - apply tab_two_points.
  - apply tab_two_points.
  - apply tab_sampled, H.
Qed.

Lemma update_shape c : c_shape (update_lengths c) = c_shape c.
Proof. unfold update_lengths. destruct (c_shape c); reflexivity. Qed.
Lemma update_fun c : c_fun (update_lengths c) = c_fun c.
Proof. unfold c_fun. rewrite update_shape. reflexivity. Qed.
Lemma update_t0 c : c_t0 (update_lengths c) = c_t0 c.
Proof. unfold update_lengths. destruct (c_shape c); reflexivity. Qed.
Lemma update_t1 c : c_t1 (update_lengths c) = c_t1 c.
Proof. unfold update_lengths. destruct (c_shape c); reflexivity. Qed.
Lemma update_ndiv c : c_ndiv (update_lengths c) = c_ndiv c.
Proof. unfold update_lengths. destruct (c_shape c); reflexivity. Qed.
Lemma update_act c : c_act (update_lengths c) = c_act c.
Proof. unfold update_lengths. destruct (c_shape c); reflexivity. Qed.
Lemma update_ext c d : c_shape c = c_shape d -> c_act c = c_act d -> c_t0 c = c_t0 d ->
  c_t1 c = c_t1 d -> c_ndiv c = c_ndiv d -> update_lengths c = update_lengths d.
Proof.
  intros E1 E2 E3 E4 E5. unfold update_lengths, c_fun. rewrite <- E1, E2, E3, E4, E5. reflexivity.
Qed.

(** The stored table and length are the ones [update_lengths] computes. *)
Definition fresh (c : curve) : Prop := update_lengths c = c.

Lemma update_fresh c : fresh (update_lengths c).
Proof.
  unfold fresh. apply update_ext; [apply update_shape|apply update_act|apply update_t0|
    apply update_t1|apply update_ndiv].
Qed.
Lemma new_fresh sh t0 t1 n : fresh (new_curve sh true t0 t1 n).
Proof. apply update_fresh. Qed.
Lemma set_start_fresh c s : fresh (set_start_on c s). Proof. apply update_fresh. Qed.
Lemma set_end_fresh c s : fresh (set_end_on c s). Proof. apply update_fresh. Qed.
Lemma set_both_fresh c s u : fresh (set_start_and_end_on c s u). Proof. apply update_fresh. Qed.

Lemma fresh_tab c : fresh c -> (2 <= c_ndiv c)%nat ->
  tab_ok (c_fun c) (c_t0 c) (c_t1 c) (c_ss c) (c_ts c).
Proof. intros F H. pose proof (update_tab c H) as T. rewrite F in T. exact T. Qed.

Lemma fresh_gen c f : fresh c -> c_shape c = SGen f ->
  let ts := linspace (c_t0 c) (c_t1 c) (c_ndiv c) in
  let cl := polylen 0 (map f ts) in
  c_ts c = ts /\ c_length c = last cl 0 /\
  c_ss c = if Req_EM_T (last cl 0) 0 then linspace 0 1 (c_ndiv c) else map (fun x => x / last cl 0) cl.
Proof.
  intros F E ts cl. unfold fresh, update_lengths, c_fun in F. rewrite E, shape_fun_gen in F.
  fold ts cl in F. cbv zeta in F.
  pose proof (f_equal c_ts F) as F1. pose proof (f_equal c_ss F) as F2.
  pose proof (f_equal c_length F) as F3. cbn [c_ts c_ss c_length] in F1, F2, F3. auto.
Qed.
Lemma fresh_line c p q : fresh c -> c_shape c = SLine p q ->
  c_ts c = [c_t0 c; c_t1 c] /\ c_ss c = [0; 1] /\
  c_length c = norm (vsub q p) * Rabs (c_t1 c - c_t0 c).
Proof.
  intros F E. unfold fresh, update_lengths in F. rewrite E in F.
  pose proof (f_equal c_ts F) as F1. pose proof (f_equal c_ss F) as F2.
  pose proof (f_equal c_length F) as F3. cbn in F1, F2, F3. auto.
Qed.
Lemma fresh_arc c r a ce m : fresh c -> c_shape c = SArc r a ce m ->
  c_ts c = [c_t0 c; c_t1 c] /\ c_ss c = [0; 1] /\ c_length c = r * a.
Proof.
  intros F E. unfold fresh, update_lengths in F. rewrite E in F.
  pose proof (f_equal c_ts F) as F1. pose proof (f_equal c_ss F) as F2.
  pose proof (f_equal c_length F) as F3. cbn in F1, F2, F3. auto.
Qed.

(** *** Evaluation from the table *)
Lemma s2t_in c s : 0 <= s <= 1 -> s2t c s = np_interp s (c_ss c) (c_ts c).
Proof.
  intros H. unfold s2t. destruct (Rlt_dec s 0); [lra|]. destruct (Rlt_dec 1 s); [lra|]. reflexivity.
Qed.

Lemma eval_seg f t0 t1 c j s : tab_ok f t0 t1 (c_ss c) (c_ts c) -> c_fun c = f ->
  0 <= s <= 1 -> (S j < length (c_ss c))%nat -> nth j (c_ss c) 0 < nth (S j) (c_ss c) 0 ->
  nth j (c_ss c) 0 <= s <= nth (S j) (c_ss c) 0 ->
  c_eval c s = f (interpolate s (nth j (c_ss c) 0) (nth (S j) (c_ss c) 0)
                   (nth j (c_ts c) 0) (nth (S j) (c_ts c) 0)).
Proof.
  intros T F Hs J LT B. unfold c_eval. rewrite F, s2t_in by exact Hs.
  rewrite np_interp_in by (rewrite (tab_s0 _ _ _ _ _ T), (tab_s1 _ _ _ _ _ T); exact Hs).
  apply scan_seg; auto; apply T.
Qed.

Lemma eval_start f t0 t1 c : tab_ok f t0 t1 (c_ss c) (c_ts c) -> c_fun c = f -> c_eval c 0 = f t0.
Proof.
  intros T F. unfold c_eval. rewrite F, s2t_in by lra.
  rewrite np_interp_in by (rewrite (tab_s0 _ _ _ _ _ T), (tab_s1 _ _ _ _ _ T); lra).
  rewrite <- (tab_s0 _ _ _ _ _ T) at 1. rewrite <- (tab_t0 _ _ _ _ _ T).
  apply scan_head; try apply T.
  intros E. pose proof (tab_two _ _ _ _ _ T) as H2. rewrite E in H2. simpl in H2. lia.
Qed.

Lemma eval_end f t0 t1 c : tab_ok f t0 t1 (c_ss c) (c_ts c) -> c_fun c = f -> c_eval c 1 = f t1.
Proof.
  intros T F. unfold c_eval. rewrite F, s2t_in by lra.
  rewrite np_interp_in by (rewrite (tab_s0 _ _ _ _ _ T), (tab_s1 _ _ _ _ _ T); lra).
  rewrite <- (tab_t1 _ _ _ _ _ T). f_equal.
  apply scan_last; try apply T.
  - intros E. pose proof (tab_two _ _ _ _ _ T) as H2. rewrite E in H2. simpl in H2. lia.
  - rewrite (tab_s1 _ _ _ _ _ T). lra.
Qed.

Lemma fresh_start c : fresh c -> (2 <= c_ndiv c)%nat -> c_eval c 0 = c_fun c (c_t0 c).
Proof. intros F H. exact (eval_start _ _ _ c (fresh_tab c F H) eq_refl). Qed.
Lemma fresh_end c : fresh c -> (2 <= c_ndiv c)%nat -> c_eval c 1 = c_fun c (c_t1 c).
Proof. intros F H. exact (eval_end _ _ _ c (fresh_tab c F H) eq_refl). Qed.

Lemma sampled_shape c : (forall p q, c_shape c <> SLine p q) ->
  (forall r a ce m, c_shape c <> SArc r a ce m) ->
  update_lengths c =
   let ts := linspace (c_t0 c) (c_t1 c) (c_ndiv c) in
      let cl := polylen 0 (map (c_fun c) ts) in
      let len := last cl 0 in
      mkCurve (c_shape c) (c_act c) (c_t0 c) (c_t1 c) (c_ndiv c) len ts
        (if Req_EM_T len 0 then linspace 0 1 (c_ndiv c) else map (fun x => x / len) cl).
Proof.
  intros H1 H2. unfold update_lengths. destruct (c_shape c).
  - reflexivity.
  - exfalso. eapply H1; reflexivity.
  - exfalso. eapply H2; reflexivity.
  - reflexivity.
Qed.

(** Two-point tables: evaluation is affine in [s] for every real [s]. *)
Lemma s2t_two_points c s : c_ss c = [0; 1] -> c_ts c = [c_t0 c; c_t1 c] ->
  s2t c s = c_t0 c + (c_t1 c - c_t0 c) * s.
Proof.
  intros E1 E2. unfold s2t. rewrite E1, E2. cbn [length Nat.sub nth].
  destruct (Rlt_dec s 0); [unfold interpolate; field|].
  destruct (Rlt_dec 1 s); [unfold interpolate; field|].
  unfold np_interp. cbn [hd last]. destruct (Rlt_dec s 0); [lra|].
  destruct (Rlt_dec 1 s); [lra|]. cbn [interp_scan].
  destruct (Rlt_dec s 1); [|replace s with 1 by lra; ring].
  destruct (Req_EM_T s 0); [subst; ring|field].
Qed.

(** Equal steps: the table is uniform and evaluation is affine in [s] on [0,1]. *)
Lemma uniform_s2t c n s : (2 <= n)%nat -> c_ts c = linspace (c_t0 c) (c_t1 c) n -> c_ss c = linspace 0 1 n -> 0 <= s <= 1 ->
  s2t c s = c_t0 c + (c_t1 c - c_t0 c) * s.
Proof.
  intros Hn ETS ESS Hs. rewrite s2t_in by exact Hs. set (ts := linspace (c_t0 c) (c_t1 c) n) in *.
  rewrite ETS, ESS.
  assert (B : hd 0 (linspace 0 1 n) <= s <= last (linspace 0 1 n) 0)
    by (rewrite linspace_hd, linspace_last by lia; exact Hs).
  rewrite np_interp_in by exact B.
  apply scan_affine; auto; try (unfold ts; rewrite ?linspace_length; lia).
  - apply linspace_incr. lra.
  - intros i Hi. rewrite linspace_length in Hi. unfold ts.
    rewrite !linspace_nth by lia. pose proof (INR_pos_2 n Hn). field. lra.
Qed.
Lemma uniform_tables f c n d : c_fun c = f -> (2 <= n)%nat -> c_ndiv c = n -> fresh c ->
  (forall p q, c_shape c <> SLine p q) -> (forall r a ce m, c_shape c <> SArc r a ce m) ->
  (forall i, (S i < n)%nat ->
     norm (vsub (f (nth (S i) (linspace (c_t0 c) (c_t1 c) n) 0))
                (f (nth i (linspace (c_t0 c) (c_t1 c) n) 0))) = d) ->
  c_ts c = linspace (c_t0 c) (c_t1 c) n /\ c_ss c = linspace 0 1 n.
Proof.
  intros F Hn N FR NL NA ST.
  unfold fresh in FR. rewrite (sampled_shape c NL NA) in FR. cbv zeta in FR. rewrite N, F in FR.
  set (ts := linspace (c_t0 c) (c_t1 c) n) in *.
  set (cl := polylen 0 (map f ts)) in *. set (len := last cl 0) in *.
  assert (ETS : c_ts c = ts) by (rewrite <- FR; reflexivity).
  assert (ESS : c_ss c = linspace 0 1 n).
  { rewrite <- FR. cbn [c_ss]. destruct (Req_EM_T len 0) as [E|E]; [reflexivity|].
    assert (CL : forall i, (i < n)%nat -> nth i cl 0 = INR i * d).
    { induction i; intros Hi.
      - unfold cl. rewrite polylen_0; [simpl; ring|]. intros H0.
        apply (f_equal (@length vec)) in H0. rewrite map_length in H0. unfold ts in H0.
        rewrite linspace_length in H0. simpl in H0. lia.
      - unfold cl. rewrite polylen_S by (rewrite map_length; unfold ts; rewrite linspace_length; lia).
        fold cl. rewrite IHi by lia. rewrite !nth_map_fun by (unfold ts; rewrite linspace_length; lia).
        rewrite ST by lia. rewrite S_INR. ring. }
    assert (LL : length cl = n).
    { unfold cl. rewrite polylen_length, map_length. apply linspace_length. }
    assert (LE : len = INR (n - 1) * d).
    { unfold len. rewrite last_nth, LL. apply CL. lia. }
    assert (d <> 0) by (intros ->; apply E; rewrite LE; ring).
    pose proof (INR_pos_2 n Hn).
    apply list_ext; [rewrite map_length, linspace_length; exact LL|].
    intros i Hi. rewrite map_length, LL in Hi. rewrite nth_map_fun by lia.
    rewrite CL, LE, linspace_nth by lia. field. split; lra. }
  split; assumption.
Qed.
Lemma s2t_uniform f c s n d : c_fun c = f -> (2 <= n)%nat -> c_ndiv c = n -> fresh c ->
  (forall p q, c_shape c <> SLine p q) -> (forall r a ce m, c_shape c <> SArc r a ce m) ->
  (forall i, (S i < n)%nat ->
     norm (vsub (f (nth (S i) (linspace (c_t0 c) (c_t1 c) n) 0))
                (f (nth i (linspace (c_t0 c) (c_t1 c) n) 0))) = d) ->
  0 <= s <= 1 -> s2t c s = c_t0 c + (c_t1 c - c_t0 c) * s.
Proof.
  intros F Hn N FR NL NA ST Hs. destruct (uniform_tables f c n d F Hn N FR NL NA ST). apply uniform_s2t with n; assumption.
Qed.
