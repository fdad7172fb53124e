(** Lemmas on chains of curves. *)
From Coq Require Import Reals ZArith Lra Lia Psatz List Bool.
From Verif Require Import Num Vec Coords Bezier Interp Curve CurveLem CurveProps Chain.
Import ListNotations.
Open Scope R_scope.

(** ** Induction over nested chains *)
Lemma node_rect' (P : node -> Prop) :
  (forall c, P (Prim c)) -> (forall a l, Forall P l -> P (Chain a l)) -> forall n, P n.
Proof.
  intros HP HC. fix IH 1. intros [c|a l]; [apply HP|]. apply HC.
  induction l as [|m l IHl]; constructor; [apply IH|exact IHl].
Qed.

Lemma nth_map' {A B} (f : A -> B) l i d d' : (i < length l)%nat -> nth i (map f l) d' = f (nth i l d).
Proof. intros H. rewrite (nth_indep _ d' (f d)) by (rewrite map_length; exact H). apply map_nth. Qed.

(** ** Sums *)
Lemma lsum_app l m : lsum (l ++ m) = lsum l + lsum m.
Proof. induction l as [|x l IH]; cbn; [ring|]. rewrite IH. ring. Qed.
Lemma lsum_nonneg l : Forall (fun x => 0 <= x) l -> 0 <= lsum l.
Proof. induction 1; cbn; [lra|]. lra. Qed.
Lemma lsum_zero l : Forall (fun x => x = 0) l -> lsum l = 0.
Proof. induction 1; cbn; [lra|]. lra. Qed.

Lemma cumsum_length a l : length (cumsum a l) = length l.
Proof. revert a. induction l; intros; cbn; auto. Qed.
Lemma cumsum_nth a l i : (i < length l)%nat -> nth i (cumsum a l) 0 = a + lsum (firstn (S i) l).
Proof.
  revert a i. induction l as [|x l IH]; intros a i H; [simpl in H; lia|].
  destruct i; cbn; [ring|]. cbn in H. rewrite IH by lia. cbn. ring.
Qed.
Lemma portions_length l : length (portions l) = S (length l).
Proof. unfold portions. cbn. rewrite map_length, cumsum_length. reflexivity. Qed.
Lemma portions_nth l i : (i <= length l)%nat -> nth i (portions l) 0 = lsum (firstn i l) / lsum l.
Proof.
  intros H. unfold portions. destruct i.
  - cbn. unfold Rdiv. ring.
  - cbn [nth]. rewrite nth_map_fun by (rewrite cumsum_length; lia).
    rewrite cumsum_nth by lia. rewrite Rplus_0_l. reflexivity.
Qed.

(** ** searchsorted *)
Lemma search_below a v j : (j < searchsorted a v)%nat -> nth j a 0 < v.
Proof.
  revert j. induction a as [|x a IH]; intros j H; cbn in H; [lia|].
  destruct (Rle_dec v x); [lia|]. destruct j; cbn; [lra|]. apply IH. lia.
Qed.
Lemma search_at a v : (searchsorted a v < length a)%nat -> v <= nth (searchsorted a v) a 0.
Proof.
  induction a as [|x a IH]; cbn; intros H; [lia|].
  destruct (Rle_dec v x); [assumption|]. apply IH. lia.
Qed.
Lemma search_le a v : (searchsorted a v <= length a)%nat.
Proof. induction a as [|x a IH]; cbn; [lia|]. destruct (Rle_dec v x); lia. Qed.

(** ** First and last active position *)
Lemma first_true_spec l k : first_true l = Some k ->
  (k < length l)%nat /\ nth k l false = true /\ forall j, (j < k)%nat -> nth j l false = false.
Proof.
  revert k. induction l as [|b l IH]; intros k H; [discriminate|]. destruct b; cbn in H.
  - injection H as <-. cbn. repeat split; auto; lia.
  - destruct (first_true l) as [m|] eqn:E; [|discriminate]. injection H as <-.
    destruct (IH m eq_refl) as (A & B & C). cbn. repeat split; auto; [lia|].
    intros [|j] Hj; [reflexivity|]. apply C. lia.
Qed.
Lemma first_true_none l : first_true l = None <-> existsb (fun b => b) l = false.
Proof.
  induction l as [|b l IH]; [split; reflexivity|]. destruct b; cbn; [split; discriminate|].
  destruct (first_true l); cbn; split; intros H; try discriminate; try reflexivity; [|apply IH; reflexivity].
  apply IH in H. discriminate.
Qed.
Lemma existsb_true l : existsb (fun b : bool => b) l = true <-> exists k, (k < length l)%nat /\ nth k l false = true.
Proof.
  induction l as [|b l IH]; cbn.
  - split; [discriminate|]. intros (k & H & _). lia.
  - destruct b; cbn; [split; auto; intros _; exists 0%nat; cbn; split; [lia|reflexivity]|].
    rewrite IH. split; intros (k & H & K).
    + exists (S k). split; [lia|exact K].
    + destruct k; [discriminate|]. exists k. split; [lia|exact K].
Qed.

Lemma min_max_spec acts : existsb (fun b => b) acts = true ->
  exists i j, active_min1 acts = S i /\ active_max1 acts = S j /\ (i <= j < length acts)%nat /\
    nth i acts false = true /\ nth j acts false = true /\
    (forall k, (k < i)%nat -> nth k acts false = false) /\
    (forall k, (j < k)%nat -> nth k acts false = false).
Proof.
  intros H. unfold active_min1, active_max1.
  destruct (first_true acts) as [i|] eqn:E1.
  2: { apply first_true_none in E1. congruence. }
  destruct (first_true (rev acts)) as [r|] eqn:E2.
  2: { apply first_true_none in E2. apply existsb_true in H. destruct H as (k & Hk & K).
       assert (existsb (fun b : bool => b) (rev acts) = true); [|congruence].
       apply existsb_exists. exists true. split; [|reflexivity]. apply in_rev. rewrite rev_involutive.
       rewrite <- K. apply nth_In, Hk. }
  destruct (first_true_spec _ _ E1) as (A1 & A2 & A3).
  destruct (first_true_spec _ _ E2) as (B1 & B2 & B3). rewrite rev_length in B1.
  rewrite rev_nth in B2 by lia.
  exists i, (length acts - S r)%nat.
  assert (MX : forall k, (length acts - S r < k)%nat -> nth k acts false = false).
  { intros k Hk. destruct (Nat.lt_ge_cases k (length acts)) as [L|L]; [|apply nth_overflow; lia].
    pose proof (B3 (length acts - S k)%nat ltac:(lia)) as Q. rewrite rev_nth in Q by lia.
    replace (length acts - S (length acts - S k))%nat with k in Q by lia. exact Q. }
  repeat split; auto; try lia.
  destruct (Nat.le_gt_cases i (length acts - S r)) as [L|L]; [exact L|].
  rewrite (MX i L) in A2. discriminate.
Qed.

(** ** The index search *)
Lemma firstn_S_sum l i : (i < length l)%nat -> lsum (firstn (S i) l) = lsum (firstn i l) + nth i l 0.
Proof.
  revert i. induction l as [|x l IH]; intros i H; [simpl in H; lia|].
  destruct i; cbn; [ring|]. cbn in H. pose proof (IH i ltac:(lia)) as Q. cbn in Q.
  rewrite Q. ring.
Qed.
Lemma firstn_sum_mono l i j : Forall (fun x => 0 <= x) l -> (i <= j)%nat ->
  lsum (firstn i l) <= lsum (firstn j l).
Proof.
  intros H. revert i j. induction H as [|x l Hx HF IH]; intros i j L.
  - rewrite !firstn_nil. lra.
  - destruct i, j; cbn; try lra; try lia.
    + assert (0 <= lsum (firstn j l)); [|lra].
      apply lsum_nonneg. clear - HF. revert j. induction HF; intros [|j]; cbn; constructor; auto.
    + pose proof (IH i j ltac:(lia)) as Q. lra.
Qed.

(** What [s_index] returns: an active position [i] and, if its curve has positive length, the local
    parameter for the travelled length. *)
Lemma s_index_spec acts lens s : length acts = length lens ->
  (forall i, nth i acts false = false -> nth i lens 0 = 0) ->
  Forall (fun x => 0 <= x) lens -> 0 < lsum lens ->
  exists i u, s_index acts lens s = Ok (i, u) /\ (i < length lens)%nat /\ nth i acts false = true /\
    (nth i lens 0 <> 0 -> lsum (firstn i lens) + u * nth i lens 0 = s * lsum lens) /\
    (nth i lens 0 = 0 -> u = 1 / 2) /\
    ((exists k, (k < i)%nat /\ nth k acts false = true) -> lsum (firstn i lens) < s * lsum lens) /\
    ((exists k, (i < k)%nat /\ nth k acts false = true) ->
      s * lsum lens <= lsum (firstn i lens) + nth i lens 0).
Proof.
  intros LL Z NN TP.
  assert (EX : existsb (fun b => b) acts = true).
  { destruct (existsb (fun b => b) acts) eqn:E; [reflexivity|]. exfalso.
    assert (lsum lens = 0); [|lra]. apply lsum_zero, Forall_forall. intros x Hx.
    apply (In_nth _ _ 0) in Hx. destruct Hx as (k & Hk & <-). apply Z.
    destruct (nth k acts false) eqn:Q; [|reflexivity].
    assert (existsb (fun b : bool => b) acts = true); [|congruence].
    apply existsb_true. exists k. split; [lia|exact Q]. }
  destruct (min_max_spec acts EX) as (mi & ma & E1 & E2 & B & A1 & A2 & M1 & M2).
  unfold s_index. rewrite E1, E2.
  set (k0 := searchsorted (portions lens) s).
  assert (P0 : forall j, (j <= length lens)%nat -> (j < k0)%nat -> lsum (firstn j lens) < s * lsum lens).
  { intros j Hj Hk. pose proof (search_below _ _ _ Hk) as Q. rewrite portions_nth in Q by exact Hj.
    apply (Rmult_lt_compat_r (lsum lens)) in Q; [|exact TP]. unfold Rdiv in Q.
    rewrite Rmult_assoc, Rinv_l, Rmult_1_r in Q by lra. exact Q. }
  assert (P1 : (k0 <= length lens)%nat -> s * lsum lens <= lsum (firstn k0 lens)).
  { intros Hk. pose proof (search_at (portions lens) s) as Q. rewrite portions_length in Q.
    fold k0 in Q. specialize (Q ltac:(lia)). rewrite portions_nth in Q by exact Hk.
    apply (Rmult_le_compat_r (lsum lens)) in Q; [|lra]. unfold Rdiv in Q.
    rewrite Rmult_assoc, Rinv_l, Rmult_1_r in Q by lra. exact Q. }
  set (k1 := if (S ma <? k0)%nat then S ma else k0).
  set (k2 := if (k1 <? S mi)%nat then S mi else k1).
  assert (K2 : (S mi <= k2 <= S ma)%nat).
  { unfold k2, k1. destruct (S ma <? k0)%nat eqn:Q1; destruct (_ <? S mi)%nat eqn:Q2;
      repeat match goal with H : (_ <? _)%nat = true |- _ => apply Nat.ltb_lt in H
                           | H : (_ <? _)%nat = false |- _ => apply Nat.ltb_ge in H end; lia. }
  rewrite portions_length.
  destruct (S (length lens) <=? k2)%nat eqn:Q; [apply Nat.leb_le in Q; lia|]. clear Q.
  destruct (Req_EM_T (lsum lens) 0) as [Q|_]; [lra|].
  assert (exists i, k2 = S i) as (i & Ei) by (destruct k2; [lia|eauto]).
  rewrite Ei. replace (S i - 1)%nat with i by lia.
  rewrite !portions_nth by lia. rewrite firstn_S_sum by lia.
  set (S0 := lsum (firstn i lens)). set (T := lsum lens) in *. set (li := nth i lens 0).
  replace ((S0 + li) / T - S0 / T) with (li / T) by (field; lra).
  (* cases of the clamping *)
  assert (CASES : (k2 = k0) \/ (k2 = S ma /\ (S ma < k0)%nat) \/ (k2 = S mi /\ (k0 < S mi)%nat)).
  { unfold k2, k1. destruct (S ma <? k0)%nat eqn:Q1; destruct (_ <? S mi)%nat eqn:Q2;
      repeat match goal with H : (_ <? _)%nat = true |- _ => apply Nat.ltb_lt in H
                           | H : (_ <? _)%nat = false |- _ => apply Nat.ltb_ge in H end; lia. }
  eexists i, _. split; [reflexivity|]. split; [lia|].
  assert (ACT : nth i acts false = true).
  { destruct CASES as [C|[[C C2]|[C C2]]].
    - destruct (nth i acts false) eqn:Q; [reflexivity|]. apply Z in Q.
      pose proof (P0 i ltac:(lia) ltac:(lia)) as Q1. pose proof (P1 ltac:(lia)) as Q2.
      rewrite <- C, Ei, firstn_S_sum in Q2 by lia. lra.
    - replace i with ma by lia. exact A2.
    - replace i with mi by lia. exact A1. }
  split; [exact ACT|]. split; [|split; [|split]].
  - intros Hl. destruct (Req_EM_T (li / T) 0) as [Q|Q].
    + exfalso. apply Hl. apply (f_equal (fun x => x * T)) in Q. unfold Rdiv in Q.
      rewrite Rmult_assoc, Rinv_l, Rmult_1_r, Rmult_0_l in Q by lra. exact Q.
    + fold S0 li. fold li in Hl. field. split; [lra|assumption].
  - intros Hl. fold li in Hl. destruct (Req_EM_T (li / T) 0) as [Q|Q]; [reflexivity|].
    exfalso. apply Q. rewrite Hl. unfold Rdiv. ring.
  - intros (k & Hk & Ak). destruct CASES as [C|[[C C2]|[C C2]]].
    + apply P0; lia.
    + apply P0; lia.
    + rewrite M1 in Ak by lia. discriminate.
  - intros (k & Hk & Ak). destruct CASES as [C|[[C C2]|[C C2]]].
    + pose proof (P1 ltac:(lia)) as Q2. rewrite <- C, Ei, firstn_S_sum in Q2 by lia. exact Q2.
    + rewrite M2 in Ak by lia. discriminate.
    + pose proof (P1 ltac:(lia)) as Q2.
      pose proof (firstn_sum_mono lens k0 (S i) NN ltac:(lia)) as Q3.
      rewrite firstn_S_sum in Q3 by lia. eapply Rle_trans; [exact Q2|exact Q3].
Qed.

Lemma s_index_none acts lens s : length acts = length lens -> existsb (fun b => b) acts = false ->
  s_index acts lens s = Err IndexError.
Proof.
  intros LL E. unfold s_index. rewrite portions_length.
  assert (F : first_true acts = None) by (apply first_true_none; exact E).
  assert (F2 : first_true (rev acts) = None).
  { apply first_true_none. destruct (existsb (fun b : bool => b) (rev acts)) eqn:Q; [|reflexivity].
    apply existsb_exists in Q. destruct Q as (b & Hb & ->). apply in_rev in Hb.
    assert (existsb (fun b : bool => b) acts = true); [|congruence]. apply existsb_exists. exists true. auto. }
  assert (active_min1 acts = S (length acts)) as -> by (unfold active_min1; rewrite F; reflexivity).
  assert (active_max1 acts = 0%nat) as -> by (unfold active_max1; rewrite F2; reflexivity).
  set (k1 := if (0 <? searchsorted (portions lens) s)%nat then 0%nat else searchsorted (portions lens) s).
  assert (k1 = 0%nat) as ->.
  { unfold k1. destruct (searchsorted (portions lens) s); reflexivity. }
  cbn [Nat.ltb Nat.leb]. rewrite LL, Nat.leb_refl. reflexivity.
Qed.

(** ** Leaves: the active single curves in order *)
Fixpoint leaves (n : node) : list curve :=
  match n with
  | Prim c => if c_act c then [c] else []
  | Chain a l => if a then flat_map leaves l else []
  end.
Definition leaves_of (l : list node) : list curve := flat_map leaves l.
Definition total (cs : list curve) : R := lsum (map c_length cs).

Lemma total_app a b : total (a ++ b) = total a + total b.
Proof. unfold total. rewrite map_app. apply lsum_app. Qed.
Lemma leaves_app a b : leaves_of (a ++ b) = leaves_of a ++ leaves_of b.
Proof. apply flat_map_app. Qed.

Lemma active_leaves n : n_active n = true <-> leaves n <> [].
Proof.
  induction n as [c|a l IH] using node_rect'; cbn.
  - destruct (c_act c); split; congruence.
  - destruct a; cbn; [|split; congruence].
    induction IH as [|m l Hm HF IHl]; cbn; [split; congruence|].
    destruct (n_active m) eqn:E; cbn.
    + assert (leaves m <> []) by (apply Hm; reflexivity). split; [|reflexivity].
      intros _ Q. apply app_eq_nil in Q. tauto.
    + assert (leaves m = []) as ->; [|exact IHl].
      destruct (leaves m); [reflexivity|]. assert (false = true) by (apply Hm; discriminate). discriminate.
Qed.
Lemma inactive_leaves n : n_active n = false <-> leaves n = [].
Proof.
  pose proof (active_leaves n). destruct (n_active n), (leaves n); split; intros; try congruence.
  - exfalso. assert (@nil curve <> []) by (apply H; reflexivity). congruence.
  - assert (false = true) by (apply H; discriminate). discriminate.
Qed.

Lemma length_leaves n : n_active n = true -> n_length n = total (leaves n).
Proof.
  induction n as [c|a l IH] using node_rect'; cbn; intros H.
  - rewrite H. unfold total. cbn. ring.
  - destruct a; [|discriminate]. clear H. unfold total.
    induction IH as [|m l Hm HF IHl]; cbn; [reflexivity|].
    rewrite map_app, lsum_app. rewrite <- IHl.
    destruct (n_active m) eqn:E.
    + rewrite Hm by reflexivity. reflexivity.
    + apply inactive_leaves in E. rewrite E. cbn. ring.
Qed.

Lemma length_array_leaves l : lsum (length_array l) = total (leaves_of l).
Proof.
  unfold total. induction l as [|m l IH]; cbn; [reflexivity|]. unfold leaves_of in *.
  rewrite map_app, lsum_app, <- IH. unfold length_array. cbn.
  destruct (n_active m) eqn:E.
  - rewrite (length_leaves m E). reflexivity.
  - apply inactive_leaves in E. rewrite E. cbn. ring.
Qed.
Lemma length_array_firstn i l : firstn i (length_array l) = length_array (firstn i l).
Proof. unfold length_array. apply firstn_map. Qed.

(** Lengths are not negative and no active (sub-)chain has length zero. *)
Fixpoint wf (n : node) : Prop :=
  match n with
  | Prim c => 0 <= c_length c
  | Chain _ l => 0 < n_length n /\
      (fix all (l : list node) : Prop :=
         match l with [] => True | m :: r => (n_active m = true -> wf m) /\ all r end) l
  end.
Lemma wf_chain a l : wf (Chain a l) <->
  0 < total (leaves_of l) /\ Forall (fun m => n_active m = true -> wf m) l.
Proof.
  change (wf (Chain a l)) with (0 < lsum (length_array l) /\
      (fix all (l : list node) : Prop :=
         match l with [] => True | m :: r => (n_active m = true -> wf m) /\ all r end) l).
  rewrite length_array_leaves. apply and_iff_compat_l.
  induction l as [|m l IH]; split; intros H; [constructor|exact I| |].
  - constructor; [apply H|apply IH, H].
  - inversion H; subst. split; [assumption|apply IH; assumption].
Qed.

Lemma wf_length n : n_active n = true -> wf n -> 0 <= n_length n.
Proof. destruct n; intros A W; [exact W|destruct W; lra]. Qed.

Lemma wf_lens l : Forall (fun m => n_active m = true -> wf m) l -> Forall (fun x => 0 <= x) (length_array l).
Proof.
  induction 1 as [|m l Hm HF IH]; cbn; constructor; auto.
  destruct (n_active m) eqn:E; [apply wf_length; auto|lra].
Qed.

Lemma nth_split' {A} (l : list A) i d : (i < length l)%nat ->
  l = firstn i l ++ nth i l d :: skipn (S i) l.
Proof.
  revert i. induction l as [|x l IH]; intros i H; [simpl in H; lia|].
  destruct i; cbn; [reflexivity|]. f_equal. apply IH. cbn in H. lia.
Qed.

(** The index search on a list of members, by splitting the list. *)
Lemma get_index_spec a l s : wf (Chain a l) ->
  exists l1 n l2 u, l = l1 ++ n :: l2 /\ get_s_index l s = Ok (length l1, u) /\ n_active n = true /\
    (n_length n <> 0 -> total (leaves_of l1) + u * n_length n = s * total (leaves_of l)) /\
    (n_length n = 0 -> u = 1 / 2) /\
    (leaves_of l1 <> [] -> total (leaves_of l1) < s * total (leaves_of l)) /\
    (leaves_of l2 <> [] -> s * total (leaves_of l) <= total (leaves_of l1) + n_length n).
Proof.
  intros W. apply wf_chain in W. destruct W as [TP WF].
  assert (NA : forall i, nth i (map n_active l) false = false -> nth i (length_array l) 0 = 0).
  { intros i Hi. destruct (Nat.lt_ge_cases i (length l)) as [L|L].
    - unfold length_array. rewrite (nth_map' _ _ _ (Chain false [])) by exact L.
      rewrite (nth_map' _ _ _ (Chain false [])) in Hi by exact L. rewrite Hi. reflexivity.
    - apply nth_overflow. unfold length_array. rewrite map_length. exact L. }
  destruct (s_index_spec (map n_active l) (length_array l) s) as (i & u & E & Hi & A & F1 & F2 & F3 & F4); auto.
  { unfold length_array. rewrite !map_length. reflexivity. }
  { apply wf_lens, WF. }
  { rewrite length_array_leaves. exact TP. }
  unfold length_array in Hi. rewrite map_length in Hi. fold (length_array l) in *.
  set (n := nth i l (Chain false [])).
  pose proof (nth_split' l i (Chain false []) Hi) as SP. fold n in SP.
  set (l1 := firstn i l) in *. set (l2 := skipn (S i) l) in *.
  assert (L1 : length l1 = i) by (unfold l1; apply firstn_length_le; lia).
  assert (An : n_active n = true).
  { rewrite (nth_map' _ _ _ (Chain false [])) in A by exact Hi. exact A. }
  assert (Ln : nth i (length_array l) 0 = n_length n).
  { unfold length_array. rewrite (nth_map' _ _ _ (Chain false [])) by exact Hi. fold n. rewrite An. reflexivity. }
  rewrite Ln, length_array_firstn in F1. rewrite Ln in F2. rewrite length_array_firstn in F3.
  rewrite Ln, length_array_firstn in F4. fold l1 in F1, F3, F4.
  rewrite !length_array_leaves in F1. rewrite !length_array_leaves in F3. rewrite !length_array_leaves in F4.
  assert (EXA : forall m, In m l -> n_active m = true -> exists k, (k < length l)%nat /\ nth k l (Chain false []) = m).
  { intros m Hm _. apply (In_nth _ _ (Chain false [])) in Hm. destruct Hm as (k & ? & ?). eauto. }
  exists l1, n, l2, u. split; [exact SP|]. split; [rewrite L1; exact E|]. split; [exact An|].
  split; [exact F1|]. split; [exact F2|].
  assert (NE : forall l', leaves_of l' <> [] -> exists k, (k < length l')%nat /\ n_active (nth k l' (Chain false [])) = true).
  { induction l' as [|m l' IH]; intros H; [contradiction H; reflexivity|].
    destruct (n_active m) eqn:Q; [exists 0%nat; cbn; split; [lia|exact Q]|].
    apply inactive_leaves in Q. cbn in H. rewrite Q in H. destruct (IH H) as (k & Hk & K).
    exists (S k). cbn. split; [lia|exact K]. }
  assert (NTH : forall k, (k < length l)%nat -> nth k (map n_active l) false = n_active (nth k l (Chain false []))).
  { intros k Hk. apply nth_map', Hk. }
  split.
  - intros H. apply F3. destruct (NE l1 H) as (k & Hk & K). exists k. split; [lia|].
    rewrite NTH by lia. rewrite SP, app_nth1 by exact Hk. exact K.
  - intros H. apply F4. destruct (NE l2 H) as (k & Hk & K). exists (S i + k)%nat. split; [lia|].
    assert (LL : length l = (length l1 + S (length l2))%nat) by (rewrite SP at 1; rewrite app_length; reflexivity).
    rewrite NTH by lia. rewrite SP, app_nth2 by lia. rewrite L1.
    replace (S i + k - i)%nat with (S k) by lia. exact K.
Qed.

(** ** Travelling a distance along a list of curves *)
Definition local (c : curve) (x : R) : R := if Req_EM_T (c_length c) 0 then 1 / 2 else x / c_length c.
Fixpoint walk (cs : list curve) (x : R) : vec :=
  match cs with
  | [] => ORIGIN
  | [c] => c_eval c (local c x)
  | c :: r => if Rle_dec x (c_length c) then c_eval c (local c x) else walk r (x - c_length c)
  end.

Lemma walk_cons c r x : r <> [] ->
  walk (c :: r) x = if Rle_dec x (c_length c) then c_eval c (local c x) else walk r (x - c_length c).
Proof. destruct r; [contradiction|reflexivity]. Qed.

Lemma total_nonneg cs : Forall (fun c => 0 <= c_length c) cs -> 0 <= total cs.
Proof. intros H. unfold total. apply lsum_nonneg. induction H; constructor; auto. Qed.

Lemma walk_app_l a b x : Forall (fun c => 0 <= c_length c) a -> a <> [] -> b = [] \/ x <= total a ->
  walk (a ++ b) x = walk a x.
Proof.
  intros NN NE H. destruct b as [|b0 b]; [rewrite app_nil_r; reflexivity|].
  destruct H as [H|H]; [discriminate|].
  revert x H. induction NN as [|c r Hc HF IH]; intros x H; [contradiction|].
  destruct r as [|d r].
  - cbn [app]. rewrite walk_cons by discriminate. unfold total in H. cbn in H.
    destruct (Rle_dec x (c_length c)); [reflexivity|lra].
  - change ((c :: d :: r) ++ b0 :: b) with (c :: (d :: r) ++ b0 :: b).
    rewrite !walk_cons by discriminate. destruct (Rle_dec x (c_length c)); [reflexivity|].
    apply IH; [discriminate|].
    unfold total in *. cbn in *. lra.
Qed.
Lemma walk_app_r a b x : Forall (fun c => 0 <= c_length c) a -> b <> [] -> a = [] \/ total a < x ->
  walk (a ++ b) x = walk b (x - total a).
Proof.
  intros NN NE H. destruct a as [|a0 a].
  { unfold total. cbn. rewrite Rminus_0_r. reflexivity. }
  destruct H as [H|H]; [discriminate|].
  revert x H. induction NN as [|c r Hc HF IH]; intros x H.
  { unfold total. cbn. rewrite Rminus_0_r. reflexivity. }
  change ((c :: r) ++ b) with (c :: r ++ b).
  assert (r ++ b <> []) by (destruct r; [exact NE|discriminate]).
  rewrite walk_cons by assumption.
  pose proof (total_nonneg r HF) as TR.
  assert (TT : total (c :: r) = c_length c + total r) by reflexivity.
  destruct (Rle_dec x (c_length c)); [lra|].
  rewrite IH by lra. f_equal. lra.
Qed.

Lemma leaves_nonneg n : n_active n = true -> wf n -> Forall (fun c => 0 <= c_length c) (leaves n).
Proof.
  induction n as [c|a l IH] using node_rect'; intros A W.
  - cbn in *. rewrite A. constructor; [exact W|constructor].
  - cbn in A. destruct a; [|discriminate]. apply wf_chain in W. destruct W as [_ WF]. cbn. clear A.
    induction IH as [|m l Hm HF IHl]; cbn; [constructor|]. inversion WF; subst.
    apply Forall_app. split; [|auto].
    destruct (n_active m) eqn:E; [auto|]. apply inactive_leaves in E. rewrite E. constructor.
Qed.
Lemma leaves_of_nonneg l : Forall (fun m => n_active m = true -> wf m) l ->
  Forall (fun c => 0 <= c_length c) (leaves_of l).
Proof.
  induction 1 as [|m l Hm HF IH]; [constructor|]. change (leaves_of (m :: l)) with (leaves m ++ leaves_of l).
  apply Forall_app. split; [|exact IH].
  destruct (n_active m) eqn:E; [apply leaves_nonneg; auto|]. apply inactive_leaves in E. rewrite E. constructor.
Qed.

(** Evaluating a chain is travelling the share [s] of the total length along the active curves,
    whatever the nesting. *)
Lemma chain_eval_walk n : n_active n = true -> wf n -> forall s,
  (n_length n <> 0 -> n_eval n s = Ok (walk (leaves n) (s * n_length n))) /\
  (forall c, n = Prim c -> n_eval n s = Ok (c_eval c s)).
Proof.
  induction n as [c|a l IH] using node_rect'; intros A W s; (split; [|intros c' Ec; inversion Ec; subst; reflexivity]).
  - cbn in A. intros NZ. cbn. rewrite A. cbn. unfold local. cbn in NZ.
    destruct (Req_EM_T (c_length c) 0); [contradiction|].
    f_equal. f_equal. field. assumption.
  - intros NZ. pose proof W as W0. apply wf_chain in W0. destruct W0 as [TP WF].
    assert (TL : n_length (Chain a l) = total (leaves_of l)) by apply length_array_leaves.
    cbn in A. destruct a; [|discriminate].
    destruct (get_index_spec true l s W) as (l1 & n & l2 & u & SP & E & An & F1 & F2 & F3 & F4).
    rewrite TL. change (n_eval (Chain true l) s) with
      (bind (get_s_index l s) (fun iu => nth (fst iu) (map n_eval l) (fun _ => Err IndexError) (snd iu))).
    rewrite E. cbn [bind fst snd].
    rewrite (nth_map' _ _ _ (Chain false [])) by (rewrite SP, app_length; cbn; lia). rewrite SP at 1. rewrite nth_middle.
    assert (Hin : In n l) by (rewrite SP; apply in_app_iff; right; left; reflexivity).
    rewrite Forall_forall in IH, WF.
    assert (Wn : wf n) by (apply WF; assumption).
    pose proof (IH n Hin An Wn u) as [IH1 IH2].
    change (leaves (Chain true l)) with (leaves_of l).
    set (x := s * total (leaves_of l)) in *.
    rewrite SP at 1. rewrite leaves_app. change (leaves_of (n :: l2)) with (leaves n ++ leaves_of l2).
    assert (Ln : leaves n <> []) by (apply active_leaves; exact An).
    assert (NN1 : Forall (fun c => 0 <= c_length c) (leaves_of l1)).
    { apply leaves_of_nonneg, Forall_forall. intros m Hm. apply WF. rewrite SP. apply in_app_iff. auto. }
    rewrite walk_app_r; [|exact NN1| |].
    2: { destruct (leaves n); [contradiction|discriminate]. }
    2: { destruct (leaves_of l1); [left; reflexivity|right; apply F3; discriminate]. }
    rewrite walk_app_l; [|apply leaves_nonneg; assumption|exact Ln|].
    2: { destruct (leaves_of l2); [left; reflexivity|right]. rewrite <- (length_leaves n An).
         assert (x <= total (leaves_of l1) + n_length n) by (apply F4; discriminate). lra. }
    destruct (Req_EM_T (n_length n) 0) as [Z|Z].
    + rewrite (F2 Z). destruct n as [c|b m].
      * cbn. cbn in An. rewrite An. cbn. unfold local. cbn in Z. rewrite Z.
        destruct (Req_EM_T 0 0); [reflexivity|contradiction].
      * destruct Wn as [Wn _]. lra.
    + rewrite (IH1 Z). f_equal. f_equal. specialize (F1 Z). lra.
Qed.
