(** NumPy helpers on one-dimensional arrays: [linspace], [cumsum], [interp], [searchsorted]. *)
From Coq Require Import Reals Lra Lia Psatz List.
From Verif Require Import Num.
Import ListNotations.
Open Scope R_scope.

(** [np.linspace(a, b, n)]. Used in curve.py 179, 195. *)
Definition linspace (a b : R) (n : nat) : list R :=
  map (fun i => a + INR i * ((b - a) / INR (n - 1))) (seq 0 n).

(** The last interval [xp[j] <= x] of [np.interp] (for ascending [xp], the documented
    precondition of [np.interp]; its binary search is then a linear scan). Used in curve.py 97-175. *)
Fixpoint interp_scan (x : R) (xp fp : list R) : R :=
  match xp, fp with
  | x0 :: ((x1 :: _) as xs), y0 :: ((y1 :: _) as ys) =>
      if Rlt_dec x x1 then
        (if Req_EM_T x x0 then y0 else (y1 - y0) / (x1 - x0) * (x - x0) + y0)
      else interp_scan x xs ys
  | _, y0 :: _ => y0
  | _, [] => 0
  end.

(** [np.interp(x, xp, fp)]: constant outside the table. Used in curve.py 100, 140. *)
Definition np_interp (x : R) (xp fp : list R) : R :=
  if Rlt_dec x (hd 0 xp) then hd 0 fp
  else if Rlt_dec (last xp 0) x then last fp 0
       else interp_scan x xp fp.

(** [np.searchsorted(a, v)] (side "left", [a] ascending): first index with [v <= a[i]]. Used in curve.py 440. *)
Fixpoint searchsorted (a : list R) (v : R) : nat :=
  match a with
  | [] => 0%nat
  | x :: r => if Rle_dec v x then 0%nat else S (searchsorted r v)
  end.

(** [np.cumsum] with running value [acc]. Used in curve.py 185, 461. *)
Fixpoint cumsum (acc : R) (l : list R) : list R :=
  match l with
  | [] => []
  | x :: r => (acc + x) :: cumsum (acc + x) r
  end.

(** src/gggears/function_generators.py lines 365-366, [interpolate]. *)
Definition interpolate (x x0 x1 y0 y1 : R) : R := y0 + (y1 - y0) * (x - x0) / (x1 - x0).

(** ** Facts *)

(** Ascending (ties allowed). Used in statements only, no code. *)
Fixpoint nondec (l : list R) : Prop :=
  match l with
  | x :: ((y :: _) as r) => x <= y /\ nondec r
  | _ => True
  end.

Lemma nondec_cons x l : nondec (x :: l) -> nondec l.
Proof. destruct l; [reflexivity|]. intros [_ H]. exact H. Qed.

Lemma nondec_nth l i j : nondec l -> (i <= j < length l)%nat -> nth i l 0 <= nth j l 0.
Proof.
  revert i j. induction l as [|x l IH]; intros i j H L; [simpl in L; lia|].
  destruct j.
  - assert (i = 0)%nat by lia. subst. lra.
  - destruct i.
    + destruct l as [|y l]; [simpl in L; lia|].
      change (x <= nth j (y :: l) 0). destruct H as [H1 H2].
      pose proof (IH 0%nat j H2 ltac:(simpl in *; lia)). simpl nth in H at 1. lra.
    + change (nth i l 0 <= nth j l 0). apply IH; [eapply nondec_cons; eauto|simpl in L; lia].
Qed.

Lemma last_nth {A} (l : list A) d : last l d = nth (length l - 1) l d.
Proof.
  induction l as [|x l IH]; [reflexivity|].
  destruct l as [|y l]; [reflexivity|].
  change (last (x :: y :: l) d) with (last (y :: l) d). rewrite IH.
  change (length (x :: y :: l) - 1)%nat with (S (length l)).
  change (length (y :: l) - 1)%nat with (length l - 0)%nat.
  rewrite Nat.sub_0_r. reflexivity.
Qed.

Lemma hd_nth {A} (l : list A) d : hd d l = nth 0 l d.
Proof. destruct l; reflexivity. Qed.

Lemma linspace_length a b n : length (linspace a b n) = n.
Proof. unfold linspace. rewrite map_length, seq_length. reflexivity. Qed.

Lemma linspace_nth a b n i d : (i < n)%nat ->
  nth i (linspace a b n) d = a + INR i * ((b - a) / INR (n - 1)).
Proof.
  intros H. unfold linspace.
  rewrite nth_indep with (d' := (fun i => a + INR i * ((b - a) / INR (n - 1))) 0%nat)
    by (rewrite map_length, seq_length; lia).
  rewrite (map_nth (fun i => a + INR i * ((b - a) / INR (n - 1)))).
  rewrite seq_nth by lia. reflexivity.
Qed.

Lemma INR_pos_2 n : (2 <= n)%nat -> 0 < INR (n - 1).
Proof. intros. apply lt_0_INR. lia. Qed.

Lemma linspace_hd a b n : (2 <= n)%nat -> hd 0 (linspace a b n) = a.
Proof. intros. rewrite hd_nth, linspace_nth by lia. simpl. ring. Qed.

Lemma linspace_last a b n : (2 <= n)%nat -> last (linspace a b n) 0 = b.
Proof.
  intros. rewrite last_nth, linspace_length, linspace_nth by lia.
  pose proof (INR_pos_2 n H). field. lra.
Qed.

Lemma rev_nth' {A} (l : list A) d i : (i < length l)%nat ->
  nth i (rev l) d = nth (length l - 1 - i) l d.
Proof. intros. rewrite rev_nth by lia. f_equal. lia. Qed.

Lemma list_ext (l m : list R) : length l = length m ->
  (forall i, (i < length l)%nat -> nth i l 0 = nth i m 0) -> l = m.
Proof. intros. apply nth_ext with 0 0; auto. Qed.

Lemma linspace_rev a b n : (2 <= n)%nat -> rev (linspace a b n) = linspace b a n.
Proof.
  intros. apply list_ext; [rewrite rev_length, !linspace_length; reflexivity|].
  intros i Hi. rewrite rev_length, linspace_length in Hi.
  rewrite rev_nth' by (rewrite linspace_length; lia).
  rewrite linspace_length, !linspace_nth by lia.
  rewrite !minus_INR by lia. pose proof (INR_pos_2 n H) as P. rewrite minus_INR in P by lia.
  field. simpl in *. lra.
Qed.

(** *** interpolation *)
Lemma scan_cons2 x x0 x1 xs y0 y1 ys : interp_scan x (x0 :: x1 :: xs) (y0 :: y1 :: ys) =
  if Rlt_dec x x1 then
    (if Req_EM_T x x0 then y0 else (y1 - y0) / (x1 - x0) * (x - x0) + y0)
  else interp_scan x (x1 :: xs) (y1 :: ys).
Proof. reflexivity. Qed.

Section Scan.
  Context {A : Type} (g : R -> A).
  (** Equal abscissae carry equal values under [g]. *)
  Definition ties (xp fp : list R) : Prop :=
    forall i, (S i < length xp)%nat -> nth i xp 0 = nth (S i) xp 0 ->
      g (nth i fp 0) = g (nth (S i) fp 0).

  Lemma ties_cons x y xp fp : ties (x :: xp) (y :: fp) -> ties xp fp.
  Proof. intros H i L E. apply (H (S i)); [simpl; lia|exact E]. Qed.

  Lemma scan_head xp fp : length xp = length fp -> xp <> [] -> nondec xp -> ties xp fp ->
    g (interp_scan (hd 0 xp) xp fp) = g (hd 0 fp).
  Proof.
    revert fp. induction xp as [|x0 xs IH]; intros fp L N D T; [congruence|].
    destruct fp as [|y0 ys]; [simpl in L; lia|].
    destruct xs as [|x1 xs]; [destruct ys; [reflexivity|simpl in L; lia]|].
    destruct ys as [|y1 ys]; [simpl in L; lia|].
    cbn [hd]. rewrite scan_cons2. destruct (Rlt_dec x0 x1) as [H|H].
    - destruct (Req_EM_T x0 x0); [reflexivity|lra].
    - destruct D as [D1 D2]. assert (x0 = x1) by lra. subst x1.
      specialize (IH (y1 :: ys) ltac:(simpl in *; lia) ltac:(discriminate) D2
        (ties_cons _ _ _ _ T)). cbn [hd] in IH. rewrite IH.
      symmetry. apply (T 0%nat); [simpl; lia|reflexivity].
  Qed.

  Lemma scan_seg xp fp j x : length xp = length fp -> nondec xp -> ties xp fp ->
    (S j < length xp)%nat -> nth j xp 0 < nth (S j) xp 0 ->
    nth j xp 0 <= x <= nth (S j) xp 0 ->
    g (interp_scan x xp fp) =
    g (interpolate x (nth j xp 0) (nth (S j) xp 0) (nth j fp 0) (nth (S j) fp 0)).
  Proof.
    revert fp j. induction xp as [|x0 xs IH]; intros fp j L D T J LT B; [simpl in J; lia|].
    destruct fp as [|y0 ys]; [simpl in L; lia|].
    destruct xs as [|x1 xs]; [simpl in J; lia|].
    destruct ys as [|y1 ys]; [simpl in L; lia|].
    destruct j.
    - change (nth 0 (x0 :: x1 :: xs) 0) with x0 in *.
      change (nth 1 (x0 :: x1 :: xs) 0) with x1 in *.
      change (nth 0 (y0 :: y1 :: ys) 0) with y0. change (nth 1 (y0 :: y1 :: ys) 0) with y1.
      rewrite scan_cons2. destruct (Rlt_dec x x1) as [H|H].
      + destruct (Req_EM_T x x0).
        * subst. f_equal. unfold interpolate. field. lra.
        * f_equal. unfold interpolate. field. lra.
      + assert (x = x1) by lra. subst x.
        pose proof (scan_head (x1 :: xs) (y1 :: ys) ltac:(simpl in *; lia) ltac:(discriminate)
          (nondec_cons _ _ D) (ties_cons _ _ _ _ T)) as E.
        cbn [hd] in E. rewrite E. f_equal. unfold interpolate. field. lra.
    - change (nth (S j) (x0 :: x1 :: xs) 0) with (nth j (x1 :: xs) 0) in *.
      change (nth (S (S j)) (x0 :: x1 :: xs) 0) with (nth (S j) (x1 :: xs) 0) in *.
      change (nth (S j) (y0 :: y1 :: ys) 0) with (nth j (y1 :: ys) 0).
      change (nth (S (S j)) (y0 :: y1 :: ys) 0) with (nth (S j) (y1 :: ys) 0).
      assert (x1 <= x).
      { pose proof (nondec_nth (x1 :: xs) 0 j (nondec_cons _ _ D) ltac:(simpl in *; lia)).
        change (nth 0 (x1 :: xs) 0) with x1 in H. lra. }
      rewrite scan_cons2.
      destruct (Rlt_dec x x1); [lra|].
      apply IH; try assumption; try (simpl in *; lia).
      + eapply nondec_cons; eauto.
      + eapply ties_cons; eauto.
  Qed.
End Scan.

Lemma scan_last xp fp x : length xp = length fp -> xp <> [] -> nondec xp -> last xp 0 <= x ->
  interp_scan x xp fp = last fp 0.
Proof.
  revert fp. induction xp as [|x0 xs IH]; intros fp L N D B; [congruence|].
  destruct fp as [|y0 ys]; [simpl in L; lia|].
  destruct xs as [|x1 xs]; [destruct ys; [reflexivity|simpl in L; lia]|].
  destruct ys as [|y1 ys]; [simpl in L; lia|].
  assert (x1 <= x).
  { pose proof (nondec_nth (x1 :: xs) 0 (length (x1 :: xs) - 1) (nondec_cons _ _ D)
       ltac:(simpl; lia)). rewrite <- last_nth in H.
    change (nth 0 (x1 :: xs) 0) with x1 in H.
    change (last (x0 :: x1 :: xs) 0) with (last (x1 :: xs) 0) in B. lra. }
  rewrite scan_cons2.
  destruct (Rlt_dec x x1); [lra|].
  change (last (y0 :: y1 :: ys) 0) with (last (y1 :: ys) 0).
  apply IH; try discriminate; try assumption; try (simpl in *; lia).
  eapply nondec_cons; eauto.
Qed.

(** Some proper interval of an ascending table contains [x]. *)
Lemma segment_exists xp x : nondec xp -> (2 <= length xp)%nat -> hd 0 xp < last xp 0 ->
  hd 0 xp <= x <= last xp 0 ->
  exists j, (S j < length xp)%nat /\ nth j xp 0 < nth (S j) xp 0 /\
    nth j xp 0 <= x <= nth (S j) xp 0.
Proof.
  induction xp as [|x0 xs IH]; intros D L LT B; [simpl in L; lia|].
  destruct xs as [|x1 xs]; [simpl in L; lia|].
  destruct (Rle_dec x x1) as [H|H].
  - destruct (Rlt_dec x0 x1).
    + exists 0%nat. simpl. simpl in B. split; [lia|]. lra.
    + destruct D as [D1 D2]. assert (x0 = x1) by lra. subst x1.
      destruct xs as [|x2 xs]; [simpl in LT; lra|].
      destruct IH as (j & J1 & J2 & J3); [exact D2|simpl; lia|exact LT|exact B|].
      exists (S j). split; [simpl in *; lia|]. split; [exact J2|exact J3].
  - destruct D as [D1 D2].
    change (last (x0 :: x1 :: xs) 0) with (last (x1 :: xs) 0) in *. cbn [hd] in *.
    destruct xs as [|x2 xs]; [simpl in *; lra|].
    destruct IH as (j & J1 & J2 & J3); [exact D2|simpl; lia|simpl hd; lra|simpl hd; lra|].
    exists (S j). split; [simpl in *; lia|]. split; [exact J2|exact J3].
Qed.

Lemma np_interp_in x xp fp : hd 0 xp <= x <= last xp 0 -> np_interp x xp fp = interp_scan x xp fp.
Proof.
  intros [H1 H2]. unfold np_interp.
  destruct (Rlt_dec x (hd 0 xp)); [lra|]. destruct (Rlt_dec (last xp 0) x); [lra|]. reflexivity.
Qed.

Lemma interpolate_bound x x0 x1 y0 y1 : x0 < x1 -> x0 <= x <= x1 -> y0 <= y1 ->
  y0 <= interpolate x x0 x1 y0 y1 <= y1.
Proof.
  intros H B Y. unfold interpolate.
  set (k := (x - x0) / (x1 - x0)).
  assert (0 <= k <= 1).
  { unfold k. split.
    - apply Rmult_le_pos; [lra|]. left. apply Rinv_0_lt_compat. lra.
    - apply Rmult_le_reg_r with (x1 - x0); [lra|]. unfold Rdiv.
      rewrite Rmult_assoc, Rinv_l by lra. lra. }
  replace ((y1 - y0) * (x - x0) / (x1 - x0)) with ((y1 - y0) * k) by (unfold k; field; lra).
  nra.
Qed.

Lemma interpolate_inv x x0 x1 y0 y1 : x0 <> x1 -> y0 <> y1 ->
  interpolate (interpolate x x0 x1 y0 y1) y0 y1 x0 x1 = x.
Proof. intros. unfold interpolate. field. lra. Qed.

Lemma nondec_map (f : R -> R) l : (forall x y, x <= y -> f x <= f y) -> nondec l -> nondec (map f l).
Proof.
  intros M. induction l as [|x l IH]; [auto|]. destruct l as [|y l]; [auto|].
  intros [H1 H2]. split; [apply M, H1|apply IH, H2].
Qed.

(** Strictly ascending. Used in statements only, no code. *)
Fixpoint incr (l : list R) : Prop :=
  match l with
  | x :: ((y :: _) as r) => x < y /\ incr r
  | _ => True
  end.
Lemma incr_nondec l : incr l -> nondec l.
Proof.
  induction l as [|x l IH]; [auto|]. destruct l as [|y l]; [auto|].
  intros [H1 H2]. split; [lra|apply IH, H2].
Qed.
Lemma incr_nth l i j : incr l -> (i < j < length l)%nat -> nth i l 0 < nth j l 0.
Proof.
  revert i j. induction l as [|x l IH]; intros i j H L; [simpl in L; lia|].
  destruct j; [lia|]. destruct i.
  - destruct l as [|y l]; [simpl in L; lia|]. destruct H as [H1 H2].
    change (x < nth j (y :: l) 0). destruct j; [exact H1|].
    pose proof (IH 0%nat (S j) H2 ltac:(simpl in *; lia)).
    change (nth 0 (y :: l) 0) with y in H. lra.
  - change (nth i l 0 < nth j l 0). apply IH; [|simpl in *; lia].
    destruct l; [exact I|]. apply H.
Qed.
Lemma incr_intro l : (forall i, (S i < length l)%nat -> nth i l 0 < nth (S i) l 0) -> incr l.
Proof.
  induction l as [|x l IH]; intros H; [exact I|]. destruct l as [|y l]; [exact I|].
  split; [apply (H 0%nat); simpl; lia|].
  apply IH. intros i Hi. apply (H (S i)). simpl in *. lia.
Qed.
Lemma nondec_intro l : (forall i, (S i < length l)%nat -> nth i l 0 <= nth (S i) l 0) -> nondec l.
Proof.
  induction l as [|x l IH]; intros H; [exact I|]. destruct l as [|y l]; [exact I|].
  split; [apply (H 0%nat); simpl; lia|].
  apply IH. intros i Hi. apply (H (S i)). simpl in *. lia.
Qed.

Lemma linspace_incr a b n : a < b -> incr (linspace a b n).
Proof.
  intros H. apply incr_intro. intros i Hi. rewrite linspace_length in Hi.
  rewrite !linspace_nth by lia. rewrite S_INR.
  assert (0 < (b - a) / INR (n - 1)).
  { apply Rdiv_lt_0_compat; [lra|]. apply INR_pos_2. lia. }
  nra.
Qed.

(** Strictly ascending tables: the value is determined by any interval. *)
Lemma scan_incr xp fp j x : length xp = length fp -> incr xp ->
  (S j < length xp)%nat -> nth j xp 0 <= x <= nth (S j) xp 0 ->
  interp_scan x xp fp = interpolate x (nth j xp 0) (nth (S j) xp 0) (nth j fp 0) (nth (S j) fp 0).
Proof.
  intros L I J B. apply (scan_seg (fun y => y)); auto using incr_nondec.
  - intros i Hi E. pose proof (incr_nth xp i (S i) I ltac:(lia)). lra.
  - apply incr_nth; [assumption|lia].
Qed.

Lemma scan_node xp fp i : length xp = length fp -> incr xp -> (i < length xp)%nat ->
  (2 <= length xp)%nat -> interp_scan (nth i xp 0) xp fp = nth i fp 0.
Proof.
  intros L I Hi H2. destruct i.
  - pose proof (incr_nth xp 0 1 I ltac:(lia)).
    rewrite (scan_incr xp fp 0) by (auto; try lia; lra).
    unfold interpolate. field. lra.
  - pose proof (incr_nth xp i (S i) I ltac:(lia)).
    rewrite (scan_incr xp fp i) by (auto; try lia; lra).
    unfold interpolate. field. lra.
Qed.

Lemma scan_inverse xp fp x : length xp = length fp -> incr xp -> incr fp -> (2 <= length xp)%nat ->
  hd 0 xp <= x <= last xp 0 ->
  hd 0 fp <= interp_scan x xp fp <= last fp 0 /\ interp_scan (interp_scan x xp fp) fp xp = x.
Proof.
  intros L I1 I2 N B.
  assert (LT : hd 0 xp < last xp 0) by (rewrite hd_nth, last_nth; apply incr_nth; auto; lia).
  destruct (segment_exists xp x (incr_nondec _ I1) N LT B) as (j & J1 & J2 & J3).
  assert (F : nth j fp 0 < nth (S j) fp 0) by (apply incr_nth; auto; lia).
  rewrite (scan_incr xp fp j x L I1 J1 J3).
  pose proof (interpolate_bound x _ _ (nth j fp 0) (nth (S j) fp 0) J2 J3 ltac:(lra)) as IB.
  split.
  - rewrite hd_nth, last_nth.
    pose proof (nondec_nth fp 0 j (incr_nondec _ I2) ltac:(lia)).
    pose proof (nondec_nth fp (S j) (length fp - 1) (incr_nondec _ I2) ltac:(lia)). lra.
  - rewrite (scan_incr fp xp j) by (auto; lia).
    apply interpolate_inv; lra.
Qed.

Lemma scan_mono xp fp x y : length xp = length fp -> incr xp -> incr fp -> (2 <= length xp)%nat ->
  hd 0 xp <= x -> x < y -> y <= last xp 0 -> interp_scan x xp fp < interp_scan y xp fp.
Proof.
  intros L I1 I2 N Bx LT By.
  assert (B : hd 0 xp < last xp 0) by lra.
  destruct (segment_exists xp x (incr_nondec _ I1) N B ltac:(lra)) as (j & J1 & J2 & J3).
  destruct (segment_exists xp y (incr_nondec _ I1) N B ltac:(lra)) as (k & K1 & K2 & K3).
  rewrite (scan_incr xp fp j x L I1 J1 J3), (scan_incr xp fp k y L I1 K1 K3).
  assert (Fj : nth j fp 0 < nth (S j) fp 0) by (apply incr_nth; auto; lia).
  assert (Fk : nth k fp 0 < nth (S k) fp 0) by (apply incr_nth; auto; lia).
  destruct (Nat.lt_trichotomy j k) as [H|[H|H]].
  - pose proof (interpolate_bound x _ _ (nth j fp 0) (nth (S j) fp 0) J2 J3 ltac:(lra)).
    pose proof (interpolate_bound y _ _ (nth k fp 0) (nth (S k) fp 0) K2 K3 ltac:(lra)).
    pose proof (nondec_nth fp (S j) k (incr_nondec _ I2) ltac:(lia)).
    destruct (Rlt_dec x (nth (S j) xp 0)).
    + assert (interpolate x (nth j xp 0) (nth (S j) xp 0) (nth j fp 0) (nth (S j) fp 0) < nth (S j) fp 0).
      { unfold interpolate. apply Rmult_lt_reg_r with (nth (S j) xp 0 - nth j xp 0); [lra|].
        rewrite Rmult_plus_distr_r. unfold Rdiv. rewrite Rmult_assoc, Rinv_l by lra. nra. }
      lra.
    + destruct (Nat.eq_dec (S j) k) as [EJ|EJ].
      2:{ pose proof (incr_nth fp (S j) k I2 ltac:(lia)). lra. }
      assert (nth k xp 0 < y) by (subst k; lra).
      assert (nth k fp 0 < interpolate y (nth k xp 0) (nth (S k) xp 0) (nth k fp 0) (nth (S k) fp 0)).
      { unfold interpolate. apply Rmult_lt_reg_r with (nth (S k) xp 0 - nth k xp 0); [lra|].
        rewrite Rmult_plus_distr_r. unfold Rdiv. rewrite Rmult_assoc, Rinv_l by lra. nra. }
      lra.
  - subst k. unfold interpolate. apply Rplus_lt_compat_l. unfold Rdiv.
    apply Rmult_lt_compat_r; [apply Rinv_0_lt_compat; lra|]. nra.
  - exfalso. pose proof (nondec_nth xp (S k) j (incr_nondec _ I1) ltac:(lia)). lra.
Qed.

(** Affine tables give affine interpolation. *)
Lemma scan_affine xp fp a b x : length xp = length fp -> incr xp -> (2 <= length xp)%nat ->
  (forall i, (i < length xp)%nat -> nth i fp 0 = a + b * nth i xp 0) ->
  hd 0 xp <= x <= last xp 0 -> interp_scan x xp fp = a + b * x.
Proof.
  intros L I N F B.
  assert (LT : hd 0 xp < last xp 0) by (rewrite hd_nth, last_nth; apply incr_nth; auto; lia).
  destruct (segment_exists xp x (incr_nondec _ I) N LT B) as (j & J1 & J2 & J3).
  rewrite (scan_incr xp fp j x L I J1 J3), !F by lia.
  unfold interpolate. field. lra.
Qed.

Lemma scan_opp x xp fp : length xp = length fp ->
  interp_scan x xp (map Ropp fp) = - interp_scan x xp fp.
Proof.
  revert fp. induction xp as [|x0 xs IH]; intros fp L; destruct fp as [|y0 ys];
    try (simpl in L; lia); [simpl; ring|].
  destruct xs as [|x1 xs], ys as [|y1 ys]; try (simpl in L; lia); [simpl; ring|].
  cbn [map]. rewrite !scan_cons2. destruct (Rlt_dec x x1).
  - destruct (Req_EM_T x x0); [ring|]. unfold Rdiv. ring.
  - apply (IH (y1 :: ys)). simpl in *. lia.
Qed.
