(** C40: the point array of a NURBS chain. *)
From Coq Require Import Reals ZArith Lra Lia List Bool.
From Verif Require Import Num Vec Coords Bezier Interp Curve Chain.
Import ListNotations.
Open Scope R_scope.

(** Members with at least two control points and as many weights. *)
Definition member_ok (c : list vec * list R) : Prop := (2 <= length (fst c))%nat /\ length (snd c) = length (fst c).
Definition chain_ok (l : nurbs) : Prop := l <> [] /\ Forall member_ok l.
(** Neighbouring members share their joint. *)
Fixpoint joints (l : nurbs) : Prop :=
  match l with
  | c :: ((d :: _) as r) => last (fst c) ORIGIN = hd ORIGIN (fst d) /\ last (snd c) 0 = hd 0 (snd d) /\ joints r
  | _ => True
  end.
(** Knots: strictly ascending from [a] to [b]. *)
Fixpoint ascending (a : nat) (l : list nat) (b : nat) : Prop :=
  match l with [] => a = b | x :: r => (a < x)%nat /\ ascending x r b end.

(** *** Lists *)
Lemma removelast_snoc {A} (l : list A) d : l <> [] -> removelast l ++ [last l d] = l.
Proof. intros H. symmetry. apply app_removelast_last, H. Qed.
Lemma removelast_length {A} (l : list A) : length (removelast l) = (length l - 1)%nat.
Proof.
  induction l as [|x l IH]; [reflexivity|]. destruct l as [|y l]; [reflexivity|].
  cbn [removelast length] in *. rewrite IH. lia.
Qed.
Lemma removelast_nth {A} (l : list A) i d : (i < length l - 1)%nat -> nth i (removelast l) d = nth i l d.
Proof.
  intros H. destruct l as [|x l]; [cbn in H; lia|].
  rewrite (app_removelast_last d (l := x :: l)) at 2 by discriminate.
  rewrite app_nth1 by (rewrite removelast_length; exact H). reflexivity.
Qed.
Lemma slice_length {A} (l : list A) i j : (j <= length l)%nat -> length (slice l i j) = (j - i)%nat.
Proof. intros H. unfold slice. rewrite firstn_length, skipn_length. lia. Qed.
Lemma skipn_skipn' {A} (l : list A) i j : skipn i (skipn j l) = skipn (j + i) l.
Proof.
  revert l. induction j as [|j IH]; intros l; [reflexivity|]. destruct l as [|x l]; [destruct i; reflexivity|apply IH].
Qed.
Lemma slice_skipn {A} (l : list A) i j : (i <= j)%nat -> slice l i j ++ skipn j l = skipn i l.
Proof.
  intros H. unfold slice. rewrite <- (firstn_skipn (j - i) (skipn i l)) at 2. f_equal.
  rewrite skipn_skipn'. f_equal. lia.
Qed.
Lemma firstn_S_app {A} (l : list A) n d : (n < length l)%nat -> firstn (S n) l = firstn n l ++ [nth n l d].
Proof.
  revert n. induction l as [|x l IH]; intros n H; [cbn in H; lia|]. destruct n; [reflexivity|].
  cbn [firstn nth app]. f_equal. apply IH. cbn in H. lia.
Qed.
Lemma slice_S {A} (l : list A) i j d : (i <= j < length l)%nat -> slice l i (S j) = slice l i j ++ [nth j l d].
Proof.
  intros H. unfold slice. replace (S j - i)%nat with (S (j - i)) by lia.
  rewrite (firstn_S_app _ _ d) by (rewrite skipn_length; lia). f_equal. f_equal.
  rewrite <- (firstn_skipn i l) at 2. rewrite app_nth2; rewrite firstn_length_le by lia; [reflexivity|lia].
Qed.
Lemma slice_removelast {A} (l : list A) i j : (i <= j < length l)%nat -> removelast (slice l i (S j)) = slice l i j.
Proof.
  intros H. destruct l as [|x l]; [cbn in H; lia|]. rewrite (slice_S _ _ _ x) by exact H. apply removelast_last.
Qed.
Lemma slice_last {A} (l : list A) i j d : (i <= j < length l)%nat -> last (slice l i (S j)) d = nth j l d.
Proof. intros H. rewrite (slice_S _ _ _ d) by exact H. apply last_last. Qed.

(** *** Reading the array *)
Lemma points_cons c d r : nb_points (c :: d :: r) = removelast (fst c) ++ nb_points (d :: r).
Proof. unfold nb_points. cbn [flat_map]. rewrite <- app_assoc. reflexivity. Qed.
Lemma weights_cons c d r : nb_weights (c :: d :: r) = removelast (snd c) ++ nb_weights (d :: r).
Proof. unfold nb_weights. cbn [flat_map]. rewrite <- app_assoc. reflexivity. Qed.
Lemma points_one c : fst c <> [] -> nb_points [c] = fst c.
Proof. intros H. unfold nb_points. cbn. rewrite app_nil_r. apply removelast_snoc, H. Qed.
Lemma weights_one c : snd c <> [] -> nb_weights [c] = snd c.
Proof. intros H. unfold nb_weights. cbn. rewrite app_nil_r. apply removelast_snoc, H. Qed.

Lemma member_nonempty c : member_ok c -> fst c <> [] /\ snd c <> [].
Proof. intros [H1 H2]. split; intros Z; rewrite Z in *; cbn in *; lia. Qed.

Lemma points_length l : chain_ok l -> S (length (flat_map (fun c => removelast (fst c)) l)) = length (nb_points l).
Proof. intros _. unfold nb_points. rewrite app_length. cbn. lia. Qed.

(** There is one knot more than members; knots ascend strictly from 0 to the last point. *)
Lemma knots_ascending k l : l <> [] -> Forall member_ok l ->
  exists r, knots_from k l = k :: r /\ length r = length l /\ ascending k r (k + length (nb_points l) - 1).
Proof.
  revert k. induction l as [|c l IH]; intros k N F; [contradiction|]. inversion F as [|? ? Hc Hl]; subst.
  destruct (member_nonempty c Hc) as [N1 N2]. destruct Hc as [H1 H2].
  destruct l as [|d l].
  - rewrite points_one by exact N1. exists [(length (fst c) - 1 + k)%nat]. cbn. repeat split; lia.
  - destruct (IH (length (fst c) - 1 + k)%nat ltac:(discriminate) Hl) as (r & E & L & A).
    exists ((length (fst c) - 1 + k)%nat :: r). change (knots_from k (c :: d :: l)) with
      (k :: knots_from (length (fst c) - 1 + k) (d :: l)). rewrite E. split; [reflexivity|].
    split; [cbn [length]; rewrite L; reflexivity|]. cbn [ascending]. split; [lia|].
    rewrite points_cons, app_length, removelast_length.
    replace (k + (length (fst c) - 1 + length (nb_points (d :: l))) - 1)%nat
      with (length (fst c) - 1 + k + length (nb_points (d :: l)) - 1)%nat by lia. exact A.
Qed.
Theorem C40_knots l : chain_ok l ->
  exists r, nb_knots l = 0%nat :: r /\ length r = length l /\ ascending 0 r (length (nb_points l) - 1).
Proof. intros [N F]. apply (knots_ascending 0 l N F). Qed.

(** Every point of every member is in the array at the member's knot plus its index, the joint of
    two members once: the last point of a member is left to the next one. *)
Theorem C40_points l k c : chain_ok l -> nth_error l k = Some c ->
  forall i, (i < length (fst c) - 1)%nat ->
    nth (nth k (nb_knots l) 0%nat + i) (nb_points l) ORIGIN = nth i (fst c) ORIGIN /\
    nth (nth k (nb_knots l) 0%nat + i) (nb_weights l) 0 = nth i (snd c) 0.
Proof.
  intros [N F] NE i Hi.
  assert (G : forall k0, exists j, nth k (knots_from k0 l) 0%nat = (k0 + j)%nat /\
    nth (j + i) (nb_points l) ORIGIN = nth i (fst c) ORIGIN /\ nth (j + i) (nb_weights l) 0 = nth i (snd c) 0).
  { revert k NE. induction l as [|e l IH]; intros k NE k0; [contradiction|].
    inversion F as [|? ? He Hl]; subst. destruct (member_nonempty e He) as [N1 N2]. destruct He as [H1 H2].
    destruct k as [|k].
    - injection NE as ->. exists 0%nat. cbn [knots_from nth]. split; [lia|]. cbn [Nat.add].
      destruct l as [|d l].
      + rewrite points_one, weights_one by assumption. auto.
      + rewrite points_cons, weights_cons. rewrite !app_nth1 by (rewrite removelast_length; lia).
        rewrite !removelast_nth by lia. auto.
    - destruct l as [|d l]; [destruct k; discriminate|].
      destruct (IH ltac:(discriminate) Hl k NE (length (fst e) - 1 + k0)%nat) as (j & K & P & W).
      exists (length (fst e) - 1 + j)%nat. cbn [knots_from nth]. split; [cbn [knots_from nth] in K; rewrite K; lia|].
      rewrite points_cons, weights_cons. rewrite !app_nth2 by (rewrite removelast_length; lia).
      rewrite !removelast_length. rewrite H2.
      replace (length (fst e) - 1 + j + i - (length (fst e) - 1))%nat with (j + i)%nat by lia. auto. }
  destruct (G 0%nat) as (j & K & P & W). unfold nb_knots. rewrite K. cbn [Nat.add]. auto.
Qed.
(** *** From the array *)
Lemma from_skipn P W a r : ascending a r (length P - 1) -> (a < length P)%nat -> length W = length P -> r <> [] ->
  nb_points (nb_from_points P W (a :: r)) = skipn a P /\ nb_weights (nb_from_points P W (a :: r)) = skipn a W /\
  (exists c t, nb_from_points P W (a :: r) = c :: t) /\
  length (nb_from_points P W (a :: r)) = length r /\ Forall member_ok (nb_from_points P W (a :: r)) /\
  knots_from a (nb_from_points P W (a :: r)) = a :: r.
Proof.
  revert a. induction r as [|b r IH]; intros a A L LW N; [contradiction|]. destruct A as [AB A].
  assert (BL : (b < length P)%nat).
  { clear - A L. revert b A. induction r as [|x r IHr]; intros b A; [cbn in A; lia|]. destruct A as [A1 A2].
    specialize (IHr x A2). lia. }
  change (nb_from_points P W (a :: b :: r)) with
    ((slice P a (b + 1), slice W a (b + 1)) :: nb_from_points P W (b :: r)). rewrite Nat.add_1_r.
  assert (MO : member_ok (slice P a (S b), slice W a (S b))).
  { split; cbn [fst snd]; rewrite !slice_length by lia; lia. }
  destruct (member_nonempty _ MO) as [M1 M2]. destruct r as [|x r].
  - cbn in A. cbn [nb_from_points]. rewrite points_one, weights_one by assumption. cbn [fst snd].
    assert (SB : S b = length P) by lia.
    split; [|split; [|split; [eauto|split; [reflexivity|split; [constructor; [exact MO|constructor]|]]]]].
    + unfold slice. rewrite SB. apply firstn_all2. rewrite skipn_length. lia.
    + unfold slice. rewrite SB. apply firstn_all2. rewrite skipn_length. lia.
    + cbn [knots_from fst]. rewrite slice_length by lia. do 2 f_equal. lia.
  - destruct (IH b A BL LW ltac:(discriminate)) as (E1 & E2 & (c & t & E3) & E4 & E5 & E6).
    set (Q := nb_from_points P W (b :: x :: r)) in *. rewrite E3 in *.
    rewrite points_cons, weights_cons, E1, E2. cbn [fst snd].
    rewrite !slice_removelast by lia. rewrite !slice_skipn by lia.
    split; [reflexivity|]. split; [reflexivity|]. split; [eauto|]. split; [cbn [length] in *; lia|].
    split; [constructor; assumption|]. cbn [knots_from fst]. rewrite slice_length by lia.
    replace (S b - a - 1 + a)%nat with b by lia. f_equal. exact E6.
Qed.

(** Splitting an array by knots and reading it back. *)
Theorem C40_split_read P W r : ascending 0 r (length P - 1) -> r <> [] -> length W = length P ->
  let l := nb_from_points P W (0%nat :: r) in
  nb_points l = P /\ nb_weights l = W /\ nb_knots l = 0%nat :: r /\ chain_ok l.
Proof.
  intros A N LW l. assert (L : (0 < length P)%nat).
  { destruct P; [|cbn; lia]. exfalso. destruct r as [|b r]; [contradiction|]. destruct A as [A1 A2]. cbn in A2.
    clear - A1 A2. revert b A1 A2. induction r as [|x r IH]; intros b A1 A2; cbn in *; [lia|].
    destruct A2. apply (IH x); [lia|assumption]. }
  destruct (from_skipn P W 0 r A L LW N) as (E1 & E2 & (c & t & E3) & E4 & E5 & E6).
  fold l in E1, E2, E3, E4, E5, E6. repeat split; auto. rewrite E3. discriminate.
Qed.
(** The members are the array between consecutive knots, both ends included. *)
Theorem C40_split_members P W knots k : (S k < length knots)%nat ->
  nth_error (nb_from_points P W knots) k =
  Some (slice P (nth k knots 0%nat) (nth (S k) knots 0%nat + 1), slice W (nth k knots 0%nat) (nth (S k) knots 0%nat + 1)).
Proof.
  revert k. induction knots as [|a r IH]; intros k H; [cbn in H; lia|].
  destruct r as [|b r]; [cbn in H; lia|]. destruct k as [|k]; [reflexivity|].
  change (nb_from_points P W (a :: b :: r)) with
    ((slice P a (b + 1), slice W a (b + 1)) :: nb_from_points P W (b :: r)). cbn [nth_error].
  rewrite IH by (cbn in *; lia). reflexivity.
Qed.

(** Reading the array and splitting it again gives the same members, if neighbours share joints. *)
Lemma firstn_joint {A} (x : list A) (y : list A) d : x <> [] -> y <> [] -> last x d = hd d y ->
  firstn (length x) (removelast x ++ y) = x.
Proof.
  intros X Y E. rewrite firstn_app, removelast_length.
  rewrite (firstn_all2 (removelast x)) by (rewrite removelast_length; lia).
  replace (length x - (length x - 1))%nat with 1%nat by (assert (length x <> 0)%nat by (destruct x; [congruence|discriminate]); lia).
  destruct y as [|z y]; [contradiction|]. cbn in *. subst z. apply removelast_snoc, X.
Qed.
Lemma points_hd c r : member_ok c -> hd ORIGIN (nb_points (c :: r)) = hd ORIGIN (fst c) /\ nb_points (c :: r) <> [] /\
  hd 0 (nb_weights (c :: r)) = hd 0 (snd c) /\ nb_weights (c :: r) <> [].
Proof.
  intros Hc. destruct (member_nonempty c Hc) as [N1 N2]. destruct Hc as [H1 H2]. destruct r as [|d r].
  - rewrite points_one, weights_one by assumption. auto.
  - rewrite points_cons, weights_cons.
    destruct (fst c) as [|p [|q ps]]; cbn in H1; try lia. destruct (snd c) as [|u [|v ws]]; cbn in H2; try lia.
    cbn. repeat split; discriminate.
Qed.
Lemma read_split l : l <> [] -> Forall member_ok l -> joints l -> forall Q QW,
  length QW = length Q ->
  nb_from_points (Q ++ nb_points l) (QW ++ nb_weights l) (knots_from (length Q) l) = l.
Proof.
  induction l as [|c l IH]; intros N F J Q QW LQ; [contradiction|]. inversion F as [|? ? Hc Hl]; subst.
  destruct (member_nonempty c Hc) as [N1 N2]. pose proof Hc as [H1 H2].
  assert (SL : forall {A} (Q0 x : list A) n m, length Q0 = n -> m = (n + length x)%nat -> forall y, firstn (length x) y = x ->
    slice (Q0 ++ y) n m = x).
  { intros A0 Q0 x n m E1 E2 y E3. unfold slice. rewrite skipn_app, E1, Nat.sub_diag, (skipn_all2 Q0) by lia.
    replace (m - n)%nat with (length x) by lia. exact E3. }
  destruct l as [|d l].
  - cbn [knots_from nb_from_points]. rewrite points_one, weights_one by assumption.
    rewrite (SL _ Q (fst c) (length Q)) by (try lia; apply firstn_all).
    rewrite (SL _ QW (snd c) (length Q)) by (try lia; apply firstn_all). destruct c; reflexivity.
  - destruct J as (J1 & J2 & J). inversion Hl as [|? ? Hd _]; subst.
    destruct (points_hd d l Hd) as (P1 & P2 & W1 & W2).
    change (knots_from (length Q) (c :: d :: l)) with
      (length Q :: knots_from (length (fst c) - 1 + length Q) (d :: l)).
    assert (KE : exists r, knots_from (length (fst c) - 1 + length Q) (d :: l) = (length (fst c) - 1 + length Q)%nat :: r)
      by (cbn; eauto). destruct KE as (r & KE).
    specialize (IH ltac:(discriminate) Hl J (Q ++ removelast (fst c)) (QW ++ removelast (snd c))).
    rewrite !app_length, !removelast_length in IH. specialize (IH ltac:(lia)).
    rewrite <- !app_assoc, <- points_cons, <- weights_cons in IH.
    replace (length Q + (length (fst c) - 1))%nat with (length (fst c) - 1 + length Q)%nat in IH by lia.
    rewrite KE in *. set (P := nb_points (c :: d :: l)) in *. set (W := nb_weights (c :: d :: l)) in *.
    set (b := (length (fst c) - 1 + length Q)%nat) in *.
    change (nb_from_points (Q ++ P) (QW ++ W) (length Q :: b :: r)) with
      ((slice (Q ++ P) (length Q) (b + 1), slice (QW ++ W) (length Q) (b + 1)) :: nb_from_points (Q ++ P) (QW ++ W) (b :: r)).
    rewrite IH. f_equal. unfold P, W.
    rewrite (SL _ Q (fst c) (length Q)) by (try (unfold b; lia); rewrite points_cons; eapply firstn_joint; eauto; rewrite P1; exact J1).
    rewrite (SL _ QW (snd c) (length Q)) by (try (unfold b; lia); rewrite weights_cons; eapply firstn_joint; eauto; rewrite W1; exact J2).
    destruct c; reflexivity.
Qed.
Theorem C40_read_split l : chain_ok l -> joints l ->
  nb_from_points (nb_points l) (nb_weights l) (nb_knots l) = l.
Proof. intros [N F] J. exact (read_split l N F J [] [] eq_refl). Qed.
(** Without shared joints the second member's version of the joint wins. *)
Theorem C40_read_split_unjoined_refuted : exists l, chain_ok l /\
  nb_from_points (nb_points l) (nb_weights l) (nb_knots l) <> l.
Proof.
  exists [([ORIGIN; RIGHT], [1; 1]); ([ORIGIN; RIGHT], [1; 1])]. split.
  - split; [discriminate|]. repeat constructor; cbn; lia.
  - cbn. unfold ORIGIN, RIGHT. intros Z. injection Z as Z. lra.
Qed.

(** Assigning an array and reading it back; a wrong size is a ValueError. *)
Lemma set_skipn p k l : l <> [] -> Forall member_ok l -> length p = (k + length (nb_points l))%nat ->
  nb_points (set_points_from p k l) = skipn k p /\ map (fun c => length (fst c)) (set_points_from p k l) = map (fun c => length (fst c)) l /\
  map snd (set_points_from p k l) = map snd l /\ (exists c t, set_points_from p k l = c :: t) .
Proof.
  revert k. induction l as [|c l IH]; intros k N F L; [contradiction|]. inversion F as [|? ? Hc Hl]; subst.
  destruct (member_nonempty c Hc) as [N1 N2]. pose proof Hc as [H1 H2]. destruct c as [ps ws]. cbn [fst snd] in *.
  destruct l as [|d l].
  - rewrite points_one in L by exact N1. cbn [fst] in L. cbn [set_points_from].
    assert (SL : slice p k (k + length ps) = skipn k p) by (unfold slice; apply firstn_all2; rewrite skipn_length; lia).
    rewrite points_one by (cbn [fst]; rewrite SL; intros Z; apply (f_equal (@length _)) in Z; rewrite skipn_length in Z; cbn in Z; lia).
    cbn [fst map snd]. rewrite SL. repeat split; eauto. rewrite skipn_length. f_equal. lia.
  - rewrite points_cons, app_length, removelast_length in L. cbn [fst] in L.
    destruct (IH (length ps - 1 + k)%nat ltac:(discriminate) Hl ltac:(lia)) as (E1 & E2 & E3 & (c & t & E4)).
    change (set_points_from p k ((ps, ws) :: d :: l)) with
      ((slice p k (k + length ps), ws) :: set_points_from p (length ps - 1 + k) (d :: l)).
    assert (LP : (0 < length (nb_points (d :: l)))%nat).
    { inversion Hl as [|? ? Hd _]; subst. destruct (points_hd d l Hd) as (_ & Q & _). destruct (nb_points (d :: l)); [congruence|cbn; lia]. }
    rewrite E4 in *. rewrite points_cons, E1. cbn [fst snd map]. cbn [map] in E2, E3. rewrite E2, E3.
    replace (k + length ps)%nat with (S (length ps - 1 + k)) by lia.
    rewrite slice_removelast by lia. rewrite slice_skipn by lia. rewrite slice_length by lia.
    repeat split; eauto. f_equal. lia.
Qed.
Theorem C40_assign l p : chain_ok l ->
  match nb_set_points l p with
  | Ok l' => nb_points l' = p /\ map (fun c => length (fst c)) l' = map (fun c => length (fst c)) l /\ map snd l' = map snd l
  | Err e => e = ValueError /\ length p <> length (nb_points l)
  end.
Proof.
  intros [N F]. unfold nb_set_points. destruct (Nat.eqb_spec (length p) (length (nb_points l))) as [E|E]; [|auto].
  destruct (set_skipn p 0 l N F E) as (E1 & E2 & E3 & _). auto.
Qed.

(** *** enforce_continuity *)

(** Same number of points and weights; points and weights strictly inside are unchanged. *)
Definition same_inner (c d : list vec * list R) : Prop :=
  length (fst d) = length (fst c) /\ length (snd d) = length (snd c) /\
  forall i, (0 < i < length (fst c) - 1)%nat ->
    nth i (fst d) ORIGIN = nth i (fst c) ORIGIN /\ nth i (snd d) 0 = nth i (snd c) 0.
Lemma same_inner_refl c : same_inner c c.
Proof. repeat split. Qed.
Lemma same_inner_trans c d e : same_inner c d -> same_inner d e -> same_inner c e.
Proof.
  intros (A1 & A2 & A3) (B1 & B2 & B3). split; [congruence|]. split; [congruence|].
  intros i Hi. destruct (A3 i Hi) as [<- <-]. apply B3. rewrite A1. exact Hi.
Qed.
Lemma set_last_length {A} (l : list A) x : length (set_last l x) = length l.
Proof. destruct l as [|y l]; [reflexivity|]. unfold set_last. rewrite app_length, removelast_length. cbn. lia. Qed.
Lemma set_first_length {A} (l : list A) x : length (set_first l x) = length l.
Proof. destruct l; reflexivity. Qed.
Lemma set_last_nth {A} (l : list A) x i d : (i < length l - 1)%nat -> nth i (set_last l x) d = nth i l d.
Proof.
  intros H. destruct l as [|y l]; [reflexivity|]. unfold set_last.
  rewrite app_nth1 by (rewrite removelast_length; exact H). apply removelast_nth, H.
Qed.
Lemma set_first_nth {A} (l : list A) x i d : (0 < i)%nat -> nth i (set_first l x) d = nth i l d.
Proof. intros H. destruct l; [reflexivity|]. destruct i; [lia|reflexivity]. Qed.
Lemma set_last_last {A} (l : list A) x d : l <> [] -> last (set_last l x) d = x.
Proof. intros H. destruct l; [contradiction|]. apply last_last. Qed.
Lemma set_last_hd {A} (l : list A) x d : (2 <= length l)%nat -> hd d (set_last l x) = hd d l.
Proof. destruct l as [|y [|z l]]; cbn; intros; try lia. reflexivity. Qed.
Lemma set_first_hd {A} (l : list A) x d : l <> [] -> hd d (set_first l x) = x.
Proof. destruct l; [contradiction|reflexivity]. Qed.
Lemma set_first_last {A} (l : list A) x d : (2 <= length l)%nat -> last (set_first l x) d = last l d.
Proof. destruct l as [|y [|z l]]; cbn [length]; intros; try lia. reflexivity. Qed.
Lemma set_last_id {A} (l : list A) d : l <> [] -> set_last l (last l d) = l.
Proof. intros H. destruct l as [|y l]; [contradiction|]. unfold set_last. apply removelast_snoc. discriminate. Qed.
Lemma set_first_id {A} (l : list A) d : l <> [] -> set_first l (hd d l) = l.
Proof. destruct l; [contradiction|reflexivity]. Qed.

Lemma inner_set_last c p w : member_ok c -> same_inner c (set_last (fst c) p, set_last (snd c) w) /\
  member_ok (set_last (fst c) p, set_last (snd c) w).
Proof.
  intros [H1 H2]. unfold same_inner, member_ok. cbn [fst snd]. rewrite !set_last_length.
  repeat split; auto; apply set_last_nth; lia.
Qed.
Lemma inner_set_first c p w : member_ok c -> same_inner c (set_first (fst c) p, set_first (snd c) w) /\
  member_ok (set_first (fst c) p, set_first (snd c) w).
Proof.
  intros [H1 H2]. unfold same_inner, member_ok. cbn [fst snd]. rewrite !set_first_length.
  repeat split; auto; apply set_first_nth; lia.
Qed.

Lemma join_from_spec l : forall c, member_ok c -> Forall member_ok l ->
  exists c' t, join_from c l = c' :: t /\ joints (c' :: t) /\ Forall member_ok (c' :: t) /\
    Forall2 same_inner (c :: l) (c' :: t) /\
    hd ORIGIN (fst c') = hd ORIGIN (fst c) /\ hd 0 (snd c') = hd 0 (snd c) /\
    last (fst (last (c' :: t) c)) ORIGIN = last (fst (last (c :: l) c)) ORIGIN /\
    last (snd (last (c' :: t) c)) 0 = last (snd (last (c :: l) c)) 0.
Proof.
  induction l as [|d l IH]; intros c Hc F.
  - exists c, []. cbn [join_from joints]. repeat split; auto using same_inner_refl.
  - inversion F as [|? ? Hd Hl]; subst. cbn [join_from]. unfold join2. cbn [fst snd].
    set (mp := vmid _ _). set (mw := _ / 2).
    destruct (inner_set_last c mp mw Hc) as [I1 M1]. destruct (inner_set_first d mp mw Hd) as [I2 M2].
    destruct (IH _ M2 Hl) as (d' & t & E & J & Fm & F2 & A1 & A2 & B1 & B2). rewrite E. cbn [fst snd] in *.
    destruct (member_nonempty c Hc) as [Nc1 Nc2]. destruct (member_nonempty d Hd) as [Nd1 Nd2].
    exists (set_last (fst c) mp, set_last (snd c) mw), (d' :: t). split; [reflexivity|]. split.
    { cbn [joints]. cbn [fst snd]. rewrite !set_last_last, A1, A2, !set_first_hd by assumption. auto. }
    split; [constructor; assumption|]. split.
    { constructor; [exact I1|]. inversion F2; subst. constructor; [eapply same_inner_trans; eauto|assumption]. }
    destruct Hc as [H1 H2]. cbn [fst snd]. rewrite !set_last_hd by lia. repeat split.
    + change (last ((set_last (fst c) mp, set_last (snd c) mw) :: d' :: t) c) with (last (d' :: t) c).
      change (last (c :: d :: l) c) with (last (d :: l) c).
      replace (last (d' :: t) c) with (last (d' :: t) (set_first (fst d) mp, set_first (snd d) mw))
        by (clear; revert d'; induction t; intros; [reflexivity|apply IHt]).
      rewrite B1. destruct l as [|e l].
      * cbn. destruct Hd as [Hd1 Hd2]. apply set_first_last, Hd1.
      * change (last ((set_first (fst d) mp, set_first (snd d) mw) :: e :: l) ?z) with (last (e :: l) z).
        change (last (d :: e :: l) c) with (last (e :: l) c).
        do 2 f_equal. clear; revert e; induction l; intros; [reflexivity|apply IHl].
    + change (last ((set_last (fst c) mp, set_last (snd c) mw) :: d' :: t) c) with (last (d' :: t) c).
      change (last (c :: d :: l) c) with (last (d :: l) c).
      replace (last (d' :: t) c) with (last (d' :: t) (set_first (fst d) mp, set_first (snd d) mw))
        by (clear; revert d'; induction t; intros; [reflexivity|apply IHt]).
      rewrite B2. destruct l as [|e l].
      * cbn. destruct Hd as [Hd1 Hd2]. apply set_first_last. lia.
      * change (last ((set_first (fst d) mp, set_first (snd d) mw) :: e :: l) ?z) with (last (e :: l) z).
        change (last (d :: e :: l) c) with (last (e :: l) c).
        do 2 f_equal. clear; revert e; induction l; intros; [reflexivity|apply IHl].
Qed.

Lemma last_default {A} (x : A) l d e : last (x :: l) d = last (x :: l) e.
Proof. revert x. induction l; intros; [reflexivity|apply IHl]. Qed.

(** Open chains: neighbours share their joint (points and weights), the interior of every member and
    the two free ends are untouched. *)
Theorem C40_enforce l : chain_ok l ->
  joints (nb_enforce false l) /\ Forall member_ok (nb_enforce false l) /\
  Forall2 same_inner l (nb_enforce false l) /\
  hd ORIGIN (nb_points (nb_enforce false l)) = hd ORIGIN (nb_points l) /\
  last (nb_points (nb_enforce false l)) ORIGIN = last (nb_points l) ORIGIN.
Proof.
  intros [N F]. destruct l as [|c l]; [contradiction|]. inversion F as [|? ? Hc Hl]; subst.
  destruct (join_from_spec l c Hc Hl) as (c' & t & E & J & Fm & F2 & A1 & A2 & B1 & B2).
  cbn [nb_enforce join_all]. rewrite E. split; [exact J|]. split; [exact Fm|]. split; [exact F2|].
  inversion Fm as [|? ? Hc' _]; subst. split.
  - rewrite (proj1 (points_hd c' t Hc')), (proj1 (points_hd c l Hc)). exact A1.
  - unfold nb_points. rewrite !last_last. rewrite (last_default c' t _ c), (last_default c l _ c). exact B1.
Qed.
(** Joined chains are left alone, so the operation is idempotent. *)
Lemma vmid_same a : vmid a a = a.
Proof. destruct a. unfold vmid, smul, vadd. cbn. f_equal; field. Qed.
Lemma join_id l : forall c, member_ok c -> Forall member_ok l -> joints (c :: l) -> join_from c l = c :: l.
Proof.
  induction l as [|d l IH]; intros c Hc F J; [reflexivity|]. inversion F as [|? ? Hd Hl]; subst.
  destruct J as (J1 & J2 & J). destruct (member_nonempty c Hc) as [Nc1 Nc2]. destruct (member_nonempty d Hd) as [Nd1 Nd2].
  cbn [join_from]. unfold join2. rewrite J1, J2, vmid_same.
  replace ((hd 0 (snd d) + hd 0 (snd d)) / 2) with (hd 0 (snd d)) by field.
  rewrite !set_first_id by assumption. rewrite <- J1, <- J2, !set_last_id by assumption. cbn [fst snd].
  destruct c, d; cbn [fst snd] in *. f_equal. apply IH; assumption.
Qed.
Theorem C40_enforce_idempotent l : chain_ok l ->
  nb_enforce false (nb_enforce false l) = nb_enforce false l.
Proof.
  intros H. destruct (C40_enforce l H) as (J & F & F2 & _). destruct H as [N _].
  destruct (nb_enforce false l) as [|c r] eqn:E; [reflexivity|].
  inversion F; subst. cbn [nb_enforce join_all]. apply join_id; assumption.
Qed.

(** Closed chains: the last member also ends where the first one starts; members inside stay
    joined.  A closed chain of one member ends where it starts. *)
Lemma joints_snoc l c d : joints (l ++ [c; d]) <-> joints (l ++ [c]) /\ last (fst c) ORIGIN = hd ORIGIN (fst d) /\ last (snd c) 0 = hd 0 (snd d).
Proof.
  induction l as [|e l IH]; [cbn; tauto|]. destruct l as [|f l]; [cbn; cbn in IH; tauto|].
  change ((e :: f :: l) ++ ?z) with (e :: f :: (l ++ z)). change ((f :: l) ++ ?z) with (f :: (l ++ z)) in IH.
  cbn [joints app] in *. tauto.
Qed.
Theorem C40_enforce_closed l : chain_ok l ->
  let r := nb_enforce true l in
  joints r /\ Forall2 same_inner l r /\
  last (nb_points r) ORIGIN = hd ORIGIN (nb_points r) /\ last (nb_weights r) 0 = hd 0 (nb_weights r).
Proof.
  intros H r. destruct (C40_enforce l H) as (J & F & F2 & _). destruct H as [N _].
  unfold r, nb_enforce in *. set (m := join_all l) in *. clearbody m. clear r.
  assert (NM : m <> []) by (intros Z; rewrite Z in F2; inversion F2; subst; contradiction).
  assert (CL : joints (close_up m) /\ Forall2 same_inner m (close_up m) /\
    last (nb_points (close_up m)) ORIGIN = hd ORIGIN (nb_points (close_up m)) /\
    last (nb_weights (close_up m)) 0 = hd 0 (nb_weights (close_up m))).
  { destruct m as [|c m]; [contradiction|]. inversion F as [|? ? Hc Hm]; subst. cbn [close_up].
    destruct m as [|d m].
    - cbn [last]. set (mp := vmid _ _). set (mw := _ / 2).
      destruct (inner_set_last c mp mw Hc) as [I1 M1]. destruct (inner_set_first _ mp mw M1) as [I2 M2]. cbn [fst snd] in I2, M2.
      destruct (member_nonempty _ M2) as [Q1 Q2]. cbn [fst snd] in Q1, Q2.
      split; [exact I|]. split; [constructor; [eapply same_inner_trans; eauto|constructor]|].
      rewrite points_one, weights_one by assumption. cbn [fst snd].
      destruct (member_nonempty _ M1) as [R1 R2]. cbn [fst snd] in R1, R2. destruct Hc as [H1 H2].
      destruct (member_nonempty c (conj H1 H2)) as [S1 S2].
      rewrite !set_first_hd, !set_first_last, !set_last_last by (rewrite ?set_last_length; try assumption; lia). auto.
    - assert (MN : d :: m <> []) by discriminate. set (q := d :: m) in *. clearbody q.
      destruct (exists_last MN) as (b & z & ->). set (e := last (c :: b ++ [z]) c).
      assert (EE : e = z) by (unfold e; change (c :: b ++ [z]) with ((c :: b) ++ [z]); apply last_last).
      rewrite EE, removelast_last. set (mp := vmid _ _). set (mw := _ / 2).
      apply Forall_app in Hm. destruct Hm as [Hb Hz]. inversion Hz as [|? ? Hz' _]; subst x l0.
      destruct (inner_set_first c mp mw Hc) as [I1 M1]. destruct (inner_set_last z mp mw Hz') as [I2 M2].
      destruct (member_nonempty c Hc) as [Nc1 Nc2]. destruct (member_nonempty z Hz') as [Nz1 Nz2].
      set (c2 := (set_first (fst c) mp, set_first (snd c) mw)) in *. set (z2 := (set_last (fst z) mp, set_last (snd z) mw)) in *.
      split; [|split; [|split]].
      + assert (JC : forall y, member_ok c -> joints (c :: y) -> joints (c2 :: y)).
        { intros y [K1 K2]. destruct y as [|y0 y]; [auto|]. cbn [joints]. unfold c2. cbn [fst snd].
          rewrite !set_first_last by lia. auto. }
        apply JC; [exact Hc|].
        destruct (@exists_last _ (c :: b)) as (b' & y & E); [discriminate|].
        change (c :: b ++ [z]) with ((c :: b) ++ [z]) in J. change (c :: b ++ [z2]) with ((c :: b) ++ [z2]).
        rewrite E in *. rewrite <- app_assoc in *. cbn [app] in *. apply joints_snoc in J. apply joints_snoc.
        destruct J as (J1 & J2 & J3). split; [exact J1|]. destruct Hz' as [K1 K2]. unfold z2. cbn [fst snd].
        rewrite !set_last_hd by lia. auto.
      + constructor; [exact I1|]. apply Forall2_app; [|constructor; [exact I2|constructor]].
        clear. induction b; constructor; auto using same_inner_refl.
      + rewrite (proj1 (points_hd c2 _ M1)). unfold nb_points. rewrite last_last.
        change (c2 :: b ++ [z2]) with ((c2 :: b) ++ [z2]). rewrite last_last. unfold z2, c2. cbn [fst].
        rewrite set_last_last, set_first_hd by assumption. reflexivity.
      + rewrite (proj1 (proj2 (proj2 (points_hd c2 _ M1)))). unfold nb_weights. rewrite last_last.
        change (c2 :: b ++ [z2]) with ((c2 :: b) ++ [z2]). rewrite last_last. unfold z2, c2. cbn [snd].
        rewrite set_last_last, set_first_hd by assumption. reflexivity. }
  destruct CL as (C1 & C2 & C3 & C4). split; [exact C1|]. split; [|auto].
  clear - F2 C2. revert l F2. induction C2; intros l0 F2; inversion F2; subst; constructor.
  - eapply same_inner_trans; eauto.
  - apply IHC2. assumption.
Qed.

(** Example: two quadratic members with a gap. *)
Example enforce_example :
  let c := ([V 0 0 0; V 1 0 0; V 2 0 0], [1; 1; 1]) in
  let d := ([V 2 2 0; V 3 0 0; V 4 0 0], [1; 1; 1]) in
  chain_ok [c; d] /\
  nb_points (nb_enforce false [c; d]) = [V 0 0 0; V 1 0 0; V 2 1 0; V 3 0 0; V 4 0 0] /\
  nb_knots [c; d] = [0; 2; 4]%nat.
Proof.
  split; [split; [discriminate|repeat constructor; cbn; lia]|]. split; [|reflexivity].
  cbn. unfold vmid, smul, vadd. cbn. repeat (f_equal; try field).
Qed.
Definition two_members : nurbs :=
  [([V 0 0 0; V 1 0 0; V 2 0 0], [1; 1; 2]); ([V 2 0 0; V 3 0 0; V 4 0 0], [2; 1; 1])].
Lemma two_members_ok : chain_ok two_members /\ joints two_members.
Proof. split; [split; [discriminate|repeat constructor; cbn; lia]|]. cbn. auto. Qed.
Definition apart : nurbs := [([V 0 0 0; V 1 0 0; V 2 0 0], [1; 1; 1]); ([V 2 2 0; V 3 0 0; V 4 0 0], [1; 1; 1])].
Lemma apart_ok : chain_ok apart.
Proof. split; [discriminate|repeat constructor; cbn; lia]. Qed.
Example C40_enforce_closed_example : last (nb_points (nb_enforce true apart)) ORIGIN = hd ORIGIN (nb_points (nb_enforce true apart)).
Proof. apply C40_enforce_closed. apply apart_ok. Qed.
Example C40_enforce_idempotent_example : nb_enforce false (nb_enforce false apart) = nb_enforce false apart.
Proof. apply C40_enforce_idempotent. apply apart_ok. Qed.
Example C40_enforce_example : joints (nb_enforce false apart).
Proof. apply C40_enforce. apply apart_ok. Qed.
Example C40_assign_example : exists l', nb_set_points two_members [UP; UP; RIGHT; UP; UP] = Ok l' /\
  nb_points l' = [UP; UP; RIGHT; UP; UP] /\ map snd l' = map snd two_members.
Proof.
  pose proof (C40_assign two_members [UP; UP; RIGHT; UP; UP] (proj1 two_members_ok)) as H.
  destruct (nb_set_points two_members [UP; UP; RIGHT; UP; UP]) as [l'|e].
  - exists l'. tauto.
  - exfalso. apply (proj2 H). reflexivity.
Qed.
Example C40_read_split_example :
  nb_from_points (nb_points two_members) (nb_weights two_members) (nb_knots two_members) = two_members.
Proof. apply C40_read_split; apply two_members_ok. Qed.
Example C40_points_example : nth (nth 1 (nb_knots two_members) 0%nat + 1) (nb_points two_members) ORIGIN = V 3 0 0.
Proof. refine (proj1 (C40_points two_members 1 _ (proj1 two_members_ok) eq_refl 1 _)). cbn. lia. Qed.
Example C40_knots_example : exists r, nb_knots two_members = 0%nat :: r /\ length r = length two_members /\
  ascending 0 r (length (nb_points two_members) - 1).
Proof. apply C40_knots. apply two_members_ok. Qed.
Example split_example : ascending 0 [2; 4]%nat (length [V 0 0 0; V 1 0 0; V 2 1 0; V 3 0 0; V 4 0 0] - 1).
Proof. cbn. lia. Qed.
Example C40_split_members_example :
  nth_error (nb_from_points [V 0 0 0; V 1 0 0; V 2 1 0; V 3 0 0; V 4 0 0] [1; 1; 1; 1; 1] [0; 2; 4]%nat) 1 =
  Some ([V 2 1 0; V 3 0 0; V 4 0 0], [1; 1; 1]).
Proof. apply C40_split_members. cbn. lia. Qed.
Example C40_split_read_example :
  let P := [V 0 0 0; V 1 0 0; V 2 1 0; V 3 0 0; V 4 0 0] in
  nb_points (nb_from_points P [1; 1; 1; 1; 1] [0; 2; 4]%nat) = P.
Proof. cbv zeta. apply C40_split_read; [apply split_example|discriminate|reflexivity]. Qed.
