(** C57-C59, C84, C85: conversion of profiles to NURBS curves and surfaces. *)
From Coq Require Import Nsatz Reals ZArith Lra Lia List Bool Arith.
From Coquelicot Require Import Coquelicot.
From Verif Require Import Num Vec Coords CoordsProps Bezier BezierLem BezierProps BezierDiffProps Interp Curve Chain NurbsProps Convert Build.
Import ListNotations.
Open Scope R_scope.

(** ** Arrays *)
Lemma for_range_S {S0} a b (body : nat -> S0 -> S0) s : (a <= b)%nat ->
  for_range a (S b) body s = body b (for_range a b body s).
Proof.
  intros H. unfold for_range. replace (S b - a)%nat with (S (b - a)) by lia.
  rewrite seq_S, fold_left_app. cbn [fold_left]. replace (a + (b - a))%nat with b by lia. reflexivity.
Qed.
Lemma for_range_empty {S0} a b (body : nat -> S0 -> S0) s : (b <= a)%nat -> for_range a b body s = s.
Proof. intros H. unfold for_range. replace (b - a)%nat with 0%nat by lia. reflexivity. Qed.
Lemma for_set_row {A} (f : nat -> A) p a b i :
  for_range a b (fun k p => set_row p k (f k)) p i = if (a <=? i)%nat && (i <? b)%nat then f i else p i.
Proof.
  destruct (Nat.le_gt_cases a b) as [H|H].
  - induction H as [|b H IH].
    + rewrite for_range_empty by lia. destruct (Nat.leb_spec a i), (Nat.ltb_spec i a); cbn; try reflexivity; lia.
    + rewrite for_range_S by exact H. unfold set_row at 1. rewrite IH. destruct (Nat.eqb_spec i b) as [->|N].
      * destruct (Nat.leb_spec a b); [|lia]. destruct (Nat.ltb_spec b (S b)); [reflexivity|lia].
      * destruct (Nat.leb_spec a i), (Nat.ltb_spec i b), (Nat.ltb_spec i (S b)); cbn; try reflexivity; lia.
  - rewrite for_range_empty by lia. destruct (Nat.leb_spec a i), (Nat.ltb_spec i b); cbn; try reflexivity; lia.
Qed.
Lemma for_assign (f : nat -> R) x a b i : for_range a b (fun k w => assign w k (f k)) x i = if (a <=? i)%nat && (i <? b)%nat then f i else x i.
Proof. exact (for_set_row f x a b i). Qed.

Lemma fit_points_eq tg N Nd n x k : fit_points tg N Nd n x k =
  if (1 <=? k)%nat && (k <? n - 1)%nat then (fun j => x (Nd * (k - 1) + j)%nat)
  else if (k =? n - 1)%nat then tg (N - 1)%nat else if (k =? 0)%nat then tg 0%nat else (fun _ => 0).
Proof. unfold fit_points. rewrite (for_set_row (fun k j => x (Nd * (k - 1) + j)%nat)). reflexivity. Qed.
Lemma fit_weights_eq Nd n x k : fit_weights Nd n x k =
  if (1 <=? k)%nat && (k <? n - 1)%nat then x (Nd * (n - 2) + k - 1)%nat else 1.
Proof. unfold fit_weights. apply (for_assign (fun k => x (Nd * (n - 2) + k - 1)%nat)). Qed.
Lemma fit_t_eq N Nd n x i : fit_t N Nd n x i =
  if (i =? N - 1)%nat then 1 else if (1 <=? i)%nat && (i <? 1 + (N - 2))%nat then x ((Nd + 1) * (n - 2) + (i - 1))%nat else 0.
Proof. reflexivity. Qed.

(** The packed vector: points row by row, then weights, then parameters. *)
Lemma inner_assign (P : arr2) Nd k x e : (1 <= k)%nat ->
  for_range 0 Nd (fun j x => assign x (Nd * (k - 1) + j) (P k j)) x e =
  if (Nd * (k - 1) <=? e)%nat && (e <? Nd * (k - 1) + Nd)%nat then P k (e - Nd * (k - 1))%nat else x e.
Proof.
  intros _. generalize (Nd * (k - 1))%nat as base. intros base.
  assert (G : forall b, for_range 0 b (fun j x => assign x (base + j) (P k j)) x e =
     if (base <=? e)%nat && (e <? base + b)%nat then P k (e - base)%nat else x e).
  { induction b as [|b IH].
    - rewrite for_range_empty by lia. destruct (Nat.leb_spec base e), (Nat.ltb_spec e (base + 0)); cbn; try reflexivity; lia.
    - rewrite for_range_S by lia. unfold assign at 1. rewrite IH. destruct (Nat.eqb_spec e (base + b)) as [->|N].
      + destruct (Nat.leb_spec base (base + b)); [|lia]. destruct (Nat.ltb_spec (base + b) (base + S b)); [|lia]. cbn. f_equal. lia.
      + destruct (Nat.leb_spec base e), (Nat.ltb_spec e (base + b)), (Nat.ltb_spec e (base + S b)); cbn; try reflexivity; lia. }
  apply G.
Qed.
Lemma fit_inverse_t N Nd n P W T i : (i < N - 2)%nat -> fit_inverse N Nd n P W T ((Nd + 1) * (n - 2) + i)%nat = T (i + 1)%nat.
Proof.
  intros H. unfold fit_inverse, assign_slice. set (b := ((Nd + 1) * (n - 2))%nat).
  destruct (Nat.leb_spec b (b + i)); [|lia]. destruct (Nat.ltb_spec (b + i) (b + (N - 2))); [|lia]. cbn. f_equal. lia.
Qed.
Lemma fit_inverse_loop Nd n (P : arr2) (W : arr1) x b e : (1 <= b <= n - 1)%nat ->
  for_range 1 b (fun k x => assign (for_range 0 Nd (fun j x => assign x (Nd * (k - 1) + j) (P k j)) x)
                      (Nd * (n - 2) + k - 1) (W k)) x e =
  if (e <? Nd * (b - 1))%nat then P (e / Nd + 1)%nat (e mod Nd)%nat
  else if (Nd * (n - 2) <=? e)%nat && (e <? Nd * (n - 2) + (b - 1))%nat then W (e - Nd * (n - 2) + 1)%nat else x e.
Proof.
  intros [H1 H2]. revert e. induction H1 as [|b H1 IH]; intros e.
  - rewrite for_range_empty by lia. replace (Nd * (1 - 1))%nat with 0%nat by lia.
    destruct (Nat.ltb_spec e 0); [lia|]. destruct (Nat.leb_spec (Nd * (n - 2)) e), (Nat.ltb_spec e (Nd * (n - 2) + (1 - 1))); cbn; try reflexivity; lia.
  - rewrite for_range_S by exact H1. specialize (IH ltac:(lia)). unfold assign at 1. rewrite inner_assign by exact H1. rewrite IH.
    assert (NB : (Nd * b <= Nd * (n - 2))%nat) by (apply Nat.mul_le_mono_l; lia).
    replace (Nd * (S b - 1))%nat with (Nd * (b - 1) + Nd)%nat by (replace (S b - 1)%nat with (S (b - 1)) by lia; lia).
    assert (NB2 : (Nd * (b - 1) + Nd = Nd * b)%nat) by (replace b with (S (b - 1)) at 2 by lia; lia).
    set (lo := (Nd * (b - 1))%nat) in *. set (W0 := (Nd * (n - 2))%nat) in *.
    destruct (Nat.eqb_spec e (W0 + b - 1)) as [->|NE].
    + destruct (Nat.ltb_spec (W0 + b - 1) (lo + Nd)); [lia|].
      destruct (Nat.leb_spec W0 (W0 + b - 1)); [|lia]. destruct (Nat.ltb_spec (W0 + b - 1) (W0 + (S b - 1))); [|lia].
      cbn. f_equal. lia.
    + destruct (Nat.leb_spec lo e), (Nat.ltb_spec e (lo + Nd)); cbn [andb].
      * destruct Nd as [|Nd']; [lia|]. set (Nd := S Nd') in *. assert (e = Nd * (b - 1) + (e - lo))%nat by lia.
        assert (Q : (e / Nd = b - 1)%nat). { symmetry. apply (Nat.div_unique e Nd (b - 1) (e - lo)); lia. }
        assert (M : (e mod Nd = e - lo)%nat). { symmetry. apply (Nat.mod_unique e Nd (b - 1) (e - lo)); lia. }
        rewrite Q, M. f_equal. lia.
      * destruct (Nat.ltb_spec e lo); [lia|].
        destruct (Nat.leb_spec W0 e), (Nat.ltb_spec e (W0 + (b - 1))), (Nat.ltb_spec e (W0 + (S b - 1))); cbn; try reflexivity; lia.
      * destruct (Nat.ltb_spec e lo); [reflexivity|lia].
      * destruct (Nat.ltb_spec e lo); [|lia]. lia.
Qed.
Lemma fit_inverse_p N Nd n P W T k j : (1 <= k < n - 1)%nat -> (j < Nd)%nat ->
  fit_inverse N Nd n P W T (Nd * (k - 1) + j)%nat = P k j.
Proof.
  intros K J. unfold fit_inverse, assign_slice. set (e := (Nd * (k - 1) + j)%nat).
  assert (E1 : (e < Nd * (n - 2))%nat).
  { unfold e. assert (Nd * S (k - 1) <= Nd * (n - 2))%nat by (apply Nat.mul_le_mono_l; lia). lia. }
  destruct (Nat.leb_spec ((Nd + 1) * (n - 2)) e) as [L|L]; [lia|]. cbn [andb].
  rewrite fit_inverse_loop by lia. replace (n - 1 - 1)%nat with (n - 2)%nat by lia.
  destruct (Nat.ltb_spec e (Nd * (n - 2))); [|lia].
  rewrite <- (Nat.div_unique e Nd (k - 1) j) by (unfold e; lia). rewrite <- (Nat.mod_unique e Nd (k - 1) j) by (unfold e; lia).
  f_equal. lia.
Qed.
Lemma fit_inverse_w N Nd n P W T k : (1 <= k < n - 1)%nat ->
  fit_inverse N Nd n P W T (Nd * (n - 2) + k - 1)%nat = W k.
Proof.
  intros K. unfold fit_inverse, assign_slice. set (e := (Nd * (n - 2) + k - 1)%nat).
  assert (E0 : ((Nd + 1) * (n - 2) = Nd * (n - 2) + (n - 2))%nat) by ring.
  assert (E1 : (e < (Nd + 1) * (n - 2))%nat) by (rewrite E0; unfold e; generalize (Nd * (n - 2))%nat; lia).
  destruct (Nat.leb_spec ((Nd + 1) * (n - 2)) e) as [L|L]; [lia|]. cbn [andb].
  rewrite fit_inverse_loop by lia. replace (n - 1 - 1)%nat with (n - 2)%nat by lia.
  destruct (Nat.ltb_spec e (Nd * (n - 2))); [unfold e in *; lia|].
  destruct (Nat.leb_spec (Nd * (n - 2)) e); [|unfold e in *; lia].
  destruct (Nat.ltb_spec e (Nd * (n - 2) + (n - 2))); [|unfold e in *; lia]. cbn. f_equal. unfold e. generalize (Nd * (n - 2))%nat. lia.
Qed.

(** Every index of the vector is a point coordinate, a weight or a parameter. *)
Lemma fit_index N Nd n e : (2 <= n)%nat -> (2 <= N)%nat -> (e < fit_size N Nd n)%nat ->
  (exists k j, (1 <= k < n - 1)%nat /\ (j < Nd)%nat /\ e = (Nd * (k - 1) + j)%nat) \/
  (exists k, (1 <= k < n - 1)%nat /\ e = (Nd * (n - 2) + k - 1)%nat) \/
  (exists i, (i < N - 2)%nat /\ e = ((Nd + 1) * (n - 2) + i)%nat).
Proof.
  intros Hn HN E. unfold fit_size in E. destruct (Nat.lt_ge_cases e (Nd * (n - 2))) as [A|A].
  - left. assert (D0 : Nd <> 0%nat) by (intros ->; lia). exists (e / Nd + 1)%nat, (e mod Nd)%nat.
    pose proof (Nat.div_mod e Nd D0). pose proof (Nat.mod_upper_bound e Nd D0).
    assert (e / Nd < n - 2)%nat by (apply Nat.div_lt_upper_bound; lia).
    split; [lia|]. split; [lia|]. replace (e / Nd + 1 - 1)%nat with (e / Nd)%nat by lia. lia.
  - right. destruct (Nat.lt_ge_cases e ((Nd + 1) * (n - 2))) as [B|B].
    + left. exists (e - Nd * (n - 2) + 1)%nat. lia.
    + right. exists (e - (Nd + 1) * (n - 2))%nat. lia.
Qed.

(** ** C57 *)
(** Packing after unpacking: the optimisation vector is recovered. *)
Theorem C57_fit_pack_unpack tg N Nd n x e : (2 <= n)%nat -> (2 <= N)%nat -> (e < fit_size N Nd n)%nat ->
  fit_inverse N Nd n (fit_points tg N Nd n x) (fit_weights Nd n x) (fit_t N Nd n x) e = x e.
Proof.
  intros Hn HN E. destruct (fit_index N Nd n e Hn HN E) as [(k & j & K & J & ->)|[(k & K & ->)|(i & I & ->)]].
  - rewrite fit_inverse_p by assumption. rewrite fit_points_eq.
    destruct (Nat.leb_spec 1 k); [|lia]. destruct (Nat.ltb_spec k (n - 1)); [reflexivity|lia].
  - rewrite fit_inverse_w by assumption. rewrite fit_weights_eq.
    destruct (Nat.leb_spec 1 k); [|lia]. destruct (Nat.ltb_spec k (n - 1)); [reflexivity|lia].
  - rewrite fit_inverse_t by assumption. rewrite fit_t_eq.
    destruct (Nat.eqb_spec (i + 1) (N - 1)); [lia|].
    destruct (Nat.leb_spec 1 (i + 1)); [|lia]. destruct (Nat.ltb_spec (i + 1) (1 + (N - 2))); [|lia]. cbn [andb]. f_equal. lia.
Qed.
(** Unpacking after packing: any points, weights and parameters are recovered, apart from their ends,
    which unpacking takes from the target. *)
Theorem C57_fit_unpack_pack tg N Nd n P W T : (2 <= n)%nat -> (2 <= N)%nat ->
  let x := fit_inverse N Nd n P W T in
  (forall k j, (1 <= k < n - 1)%nat -> (j < Nd)%nat -> fit_points tg N Nd n x k j = P k j) /\
  (forall k, (1 <= k < n - 1)%nat -> fit_weights Nd n x k = W k) /\
  (forall i, (1 <= i < N - 1)%nat -> fit_t N Nd n x i = T i).
Proof.
  intros Hn HN x. repeat split.
  - intros k j K J. rewrite fit_points_eq. destruct (Nat.leb_spec 1 k); [|lia]. destruct (Nat.ltb_spec k (n - 1)); [|lia]. cbn [andb].
    apply fit_inverse_p; assumption.
  - intros k K. rewrite fit_weights_eq. destruct (Nat.leb_spec 1 k); [|lia]. destruct (Nat.ltb_spec k (n - 1)); [|lia]. cbn [andb].
    apply fit_inverse_w; assumption.
  - intros i I. rewrite fit_t_eq. destruct (Nat.eqb_spec i (N - 1)); [lia|].
    destruct (Nat.leb_spec 1 i); [|lia]. destruct (Nat.ltb_spec i (1 + (N - 2))); [|lia]. cbn [andb].
    unfold x. rewrite fit_inverse_t by lia. f_equal. lia.
Qed.
(** Whatever the optimiser returns, the ends are those of the target. *)
Theorem C57_fit_ends tg N Nd n x : (2 <= n)%nat -> (2 <= N)%nat ->
  fit_points tg N Nd n x 0%nat = tg 0%nat /\ fit_points tg N Nd n x (n - 1)%nat = tg (N - 1)%nat /\
  fit_weights Nd n x 0%nat = 1 /\ fit_weights Nd n x (n - 1)%nat = 1 /\
  fit_t N Nd n x 0%nat = 0 /\ fit_t N Nd n x (N - 1)%nat = 1.
Proof.
  intros Hn HN. rewrite !fit_points_eq, !fit_weights_eq, !fit_t_eq. rewrite !Nat.eqb_refl, !Nat.ltb_irrefl, !andb_false_r.
  destruct (Nat.leb_spec 1 0); [lia|]. cbn [andb].
  destruct (Nat.eqb_spec 0 (n - 1)); [lia|]. destruct (Nat.eqb_spec 0 (N - 1)); [lia|]. repeat split; reflexivity.
Qed.

(** *** The surface solver *)
Lemma pack_index n e : (0 < n)%nat -> (((e / (n * 4)) * n + (e / 4) mod n) * 4 + e mod 4 = e)%nat.
Proof.
  intros H. rewrite (Nat.mul_comm n 4), <- Nat.div_div by lia.
  pose proof (Nat.div_mod (e / 4) n ltac:(lia)). pose proof (Nat.div_mod e 4 ltac:(lia)). lia.
Qed.
Lemma unpack_index n i a b : (a < n)%nat -> (b < 4)%nat ->
  let e := ((i * n + a) * 4 + b)%nat in (e / (n * 4) = i /\ (e / 4) mod n = a /\ e mod 4 = b)%nat.
Proof.
  intros A B e. assert (E4 : (e / 4 = i * n + a)%nat) by (symmetry; apply (Nat.div_unique e 4 (i * n + a) b); unfold e; lia).
  split; [|split].
  - rewrite (Nat.mul_comm n 4), <- Nat.div_div, E4 by lia. symmetry. apply (Nat.div_unique _ n i a); lia.
  - rewrite E4. symmetry. apply (Nat.mod_unique _ n i a); lia.
  - symmetry. apply (Nat.mod_unique e 4 (i * n + a) b); unfold e; lia.
Qed.
Lemma surf_mid tg o n m x i : (1 <= i < m - 1)%nat -> surf_points tg o n m x i = fun a b => x (((i - 1) * n + a) * 4 + b)%nat.
Proof. intros H. unfold surf_points. destruct (Nat.leb_spec 1 i); [|lia]. destruct (Nat.ltb_spec i (m - 1)); [reflexivity|lia]. Qed.
Lemma surf_first tg o n m x : (2 <= m)%nat -> surf_points tg o n m x 0%nat = tg 0%nat.
Proof. intros H. unfold surf_points, set_row. destruct (Nat.leb_spec 1 0); [lia|]. cbn [andb]. destruct (Nat.eqb_spec 0 (m - 1)); [lia|reflexivity]. Qed.
Lemma surf_last tg o n m x : (2 <= m)%nat -> surf_points tg o n m x (m - 1)%nat = tg (o - 1)%nat.
Proof. intros H. unfold surf_points, set_row. rewrite Nat.ltb_irrefl, andb_false_r, Nat.eqb_refl. reflexivity. Qed.

Theorem C57_surface_pack_unpack tg o n m x e : (2 <= m)%nat -> (2 <= o)%nat -> (e < surf_size o n m - 2)%nat ->
  surf_inverse o n m (surf_points tg o n m x) (surf_t n m x) e = x e.
Proof.
  intros Hm Ho E. unfold surf_inverse, surf_inverse_fast, assign_slice, surf_t. unfold surf_size in E.
  set (L := ((m - 2) * n * 4)%nat) in *. destruct (Nat.leb_spec L e), (Nat.ltb_spec e (L + (o - 2))); cbn [andb]; try lia.
  - f_equal. lia.
  - destruct (Nat.leb_spec 0 e); [|lia]. destruct (Nat.ltb_spec e (0 + L)); [|lia]. cbn [andb].
    rewrite Nat.sub_0_r.
    assert (N0 : (0 < n)%nat) by (destruct n; [subst L; lia|lia]).
    assert (e / (n * 4) < m - 2)%nat by (apply Nat.div_lt_upper_bound; subst L; lia).
    rewrite surf_mid by lia. f_equal. replace (e / (n * 4) + 1 - 1)%nat with (e / (n * 4))%nat by lia. apply pack_index, N0.
Qed.
(** The vector has two entries that nothing reads: packing writes 0 there. *)
Theorem C57_surface_unused o n m P t e : (2 <= o)%nat -> (surf_size o n m - 2 <= e < surf_size o n m)%nat ->
  surf_inverse o n m P t e = 0.
Proof.
  intros Ho E. unfold surf_inverse, surf_inverse_fast, assign_slice, surf_size in *. set (L := ((m - 2) * n * 4)%nat) in *.
  destruct (Nat.ltb_spec e (L + (o - 2))); [lia|]. rewrite andb_false_r. destruct (Nat.ltb_spec e (0 + L)); [lia|]. rewrite andb_false_r. reflexivity.
Qed.
Theorem C57_surface_unpack_pack tg o n m P t : (2 <= m)%nat -> (2 <= o)%nat ->
  let x := surf_inverse o n m P t in
  (forall i a b, (1 <= i < m - 1)%nat -> (a < n)%nat -> (b < 4)%nat -> surf_points tg o n m x i a b = P i a b) /\
  (forall i, (i < o - 2)%nat -> surf_t n m x i = t i).
Proof.
  intros Hm Ho x. split.
  - intros i a b I A B. rewrite surf_mid by exact I. unfold x, surf_inverse, surf_inverse_fast, assign_slice.
    destruct (unpack_index n (i - 1) a b A B) as (E1 & E2 & E3). set (e := (((i - 1) * n + a) * 4 + b)%nat) in *.
    assert (LT : (e < (m - 2) * n * 4)%nat).
    { assert ((i - 1) * n + a < (m - 2) * n)%nat; [|unfold e; lia].
      assert (S (i - 1) * n <= (m - 2) * n)%nat by (apply Nat.mul_le_mono_r; lia). lia. }
    set (L := ((m - 2) * n * 4)%nat) in *. destruct (Nat.leb_spec L e); [lia|]. cbn [andb].
    destruct (Nat.leb_spec 0 e); [|lia]. destruct (Nat.ltb_spec e (0 + L)); [|lia]. cbn [andb].
    rewrite Nat.sub_0_r, E1, E2, E3. f_equal. lia.
  - intros i I. unfold surf_t, x, surf_inverse, assign_slice. set (L := ((m - 2) * n * 4)%nat) in *.
    destruct (Nat.leb_spec L (L + i)); [|lia]. destruct (Nat.ltb_spec (L + i) (L + (o - 2))); [|lia]. cbn [andb]. f_equal. lia.
Qed.
(** Whatever the optimiser returns, the surface begins at the first and ends at the last section. *)
Theorem C57_surface_ends tg o n m x v : (2 <= m)%nat ->
  let P := surf_points tg o n m x in
  bezierdc v (entries n (fun a => tg 0%nat a 3%nat)) <> 0 ->
  bezierdc v (entries n (fun a => tg (o - 1)%nat a 3%nat)) <> 0 -> (1 <= n)%nat ->
  nurbezier_surface 0 v (net_points n m P) (net_weights n m P) =
    nurbezier v (row_points n (tg 0%nat)) (entries n (fun a => tg 0%nat a 3%nat)) /\
  nurbezier_surface 1 v (net_points n m P) (net_weights n m P) =
    nurbezier v (row_points n (tg (o - 1)%nat)) (entries n (fun a => tg (o - 1)%nat a 3%nat)).
Proof.
  intros Hm P W0 W1 Hn.
  assert (BN : forall w, bezier v (entries n w) = bezierdc v (entries n w)).
  { intros w. symmetry. apply C15_decasteljau_is_bernstein_weights. unfold entries. destruct n; [lia|discriminate]. }
  unfold nurbezier_surface, net_points, net_weights.
  set (q := map _ (combine _ _)).
  assert (Q : q = map (fun i => nurbezier v (row_points n (P i)) (entries n (fun a => P i a 3%nat))) (seq 0 m)).
  { unfold q. clear. generalize (seq 0 m). induction l as [|i l IH]; [reflexivity|]. cbn [map combine]. rewrite IH. reflexivity. }
  rewrite Q, map_map. clear q Q.
  set (f := fun i => nurbezier v (row_points n (P i)) (entries n (fun a => P i a 3%nat))).
  set (g := fun i => bezier v (entries n (fun a => P i a 3%nat))).
  assert (LEN : length (map f (seq 0 m)) = length (map g (seq 0 m))) by (rewrite !map_length; reflexivity).
  assert (NE : map g (seq 0 m) <> []) by (destruct m; [lia|discriminate]).
  assert (LAST : forall B (h : nat -> B) d, last (map h (seq 0 m)) d = h (m - 1)%nat).
  { intros B h d. destruct m as [|m']; [lia|]. rewrite seq_S, map_app. cbn [map]. rewrite last_last. f_equal. lia. }
  assert (E0 : P 0%nat = tg 0%nat) by (apply surf_first; exact Hm).
  assert (E1 : P (m - 1)%nat = tg (o - 1)%nat) by (apply surf_last; exact Hm).
  split.
  - rewrite C17_starts_at_first; try assumption.
    + destruct m; [lia|]. cbn [seq map hd]. unfold f. rewrite E0. reflexivity.
    + destruct m; [lia|]. cbn [seq map hd]. unfold g. rewrite E0, BN. exact W0.
  - rewrite C17_ends_at_last; try assumption.
    + rewrite LAST. unfold f. rewrite E1. reflexivity.
    + rewrite LAST. unfold g. rewrite E1, BN. exact W1.
Qed.

(** ** C58: derivatives *)
Lemma sumn_ext n f g : (forall i, (i < n)%nat -> f i = g i) -> sumn n f = sumn n g.
Proof. induction n; intros H; cbn; [reflexivity|]. rewrite IHn, H by auto. reflexivity. Qed.
Lemma sumn_plus n f g : sumn n (fun i => f i + g i) = sumn n f + sumn n g.
Proof. induction n; cbn; [ring|]. rewrite IHn. ring. Qed.
Lemma sumn_scal n c f : sumn n (fun i => c * f i) = c * sumn n f.
Proof. induction n; cbn; [ring|]. rewrite IHn. ring. Qed.
Lemma sumn_zero n : sumn n (fun _ => 0) = 0.
Proof. induction n; cbn; [reflexivity|]. rewrite IHn. ring. Qed.
Lemma sumn_swap n m (f : nat -> nat -> R) : sumn n (fun i => sumn m (fun j => f i j)) = sumn m (fun j => sumn n (fun i => f i j)).
Proof. induction n; cbn; [symmetry; apply sumn_zero|]. rewrite IHn, <- sumn_plus. reflexivity. Qed.
Lemma sumn_app a b f : sumn (a + b) f = sumn a f + sumn b (fun i => f (a + i)%nat).
Proof. induction b; [rewrite Nat.add_0_r; cbn; ring|]. rewrite Nat.add_succ_r. cbn. rewrite IHb. ring. Qed.
Lemma sumn_mul a b f : sumn (a * b) f = sumn b (fun k => sumn a (fun j => f (a * k + j)%nat)).
Proof. induction b; [rewrite Nat.mul_0_r; reflexivity|]. rewrite Nat.mul_succ_r, sumn_app. cbn. rewrite IHb. reflexivity. Qed.
Ltac eqR := match goal with |- ?a = ?b => change (@eq R a b) end.
Definition mid (n k : nat) (v : R) : R := if (1 <=? k)%nat && (k <? n - 1)%nat then v else 0.
Lemma sumn_mid n f (v : nat -> R) : (2 <= n)%nat -> sumn n (fun k => f k * mid n k (v k)) = sumn (n - 2) (fun k => f (k + 1)%nat * v (k + 1)%nat).
Proof.
  intros H. replace n with (1 + ((n - 2) + 1))%nat at 1 by lia. rewrite sumn_app, sumn_app. cbn [sumn].
  assert (Z0 : mid n 0 (v 0%nat) = 0) by (unfold mid; destruct (Nat.leb_spec 1 0); [lia|reflexivity]).
  assert (Z1 : mid n (1 + (n - 2 + 0)) (v (1 + (n - 2 + 0))%nat) = 0).
  { unfold mid. destruct (Nat.ltb_spec (1 + (n - 2 + 0)) (n - 1)); [lia|]. rewrite andb_false_r. reflexivity. }
  rewrite Z0, Z1. rewrite (sumn_ext (n - 2) _ (fun k => f (k + 1)%nat * v (k + 1)%nat)); [ring|].
  intros i I. replace (1 + i)%nat with (i + 1)%nat by lia. f_equal. unfold mid.
  destruct (Nat.leb_spec 1 (i + 1)); [|lia]. destruct (Nat.ltb_spec (i + 1) (n - 1)); [reflexivity|lia].
Qed.
Lemma sumn_f_R0 d f : sumn (S d) f = sum_f_R0 f d.
Proof. induction d; [cbn; ring|]. cbn [sum_f_R0]. rewrite <- IHd. reflexivity. Qed.

Lemma entries_length n w : length (entries n w) = n.
Proof. unfold entries. rewrite map_length, seq_length. reflexivity. Qed.
Lemma entries_nth n w k : (k < n)%nat -> nth k (entries n w) 0 = w k.
Proof.
  intros H. unfold entries. rewrite (nth_indep _ 0 (w 0%nat)) by (rewrite map_length, seq_length; exact H).
  rewrite map_nth, seq_nth by exact H. reflexivity.
Qed.
Lemma bez_entries t d w : bezierdc t (entries (S d) w) = dcf t d w.
Proof. rewrite (bezierdc_dcf t _ d) by apply entries_length. apply dcf_ext. intros k K. apply entries_nth. lia. Qed.
Lemma bez_entries_diff t d w : bezierdc t (diff_step (INR (S (S d)) - 1) (entries (S (S d)) w)) =
  dcf t d (fun k => INR (S d) * (w (S k) - w k)).
Proof.
  rewrite (bezierdc_dcf t _ d) by (rewrite diff_step_length, entries_length; lia). apply dcf_ext. intros k K.
  rewrite (diff_step_nth _ _ k) by (rewrite entries_length; lia). change (@lz R Lin_R) with 0. rewrite !entries_nth by lia.
  cbn [ladd lsc Lin_R]. rewrite (S_INR (S d)). ring.
Qed.
Lemma bez_entries_sum t d w : bezierdc t (entries (S d) w) = sumn (S d) (fun k => nth k (bezier_diff_p t (S d)) 0 * w k).
Proof.
  rewrite bez_entries, dcf_bern, sumn_f_R0. apply sum_f_ext. intros k K. rewrite diff_p_nth by lia. reflexivity.
Qed.

(** Directional derivative of a Bezier value: parameter and coefficients move. *)
Lemma bez_dir d (t tau : R) (p q r : nat -> R) :
  is_derive (fun s : R => dcf (t + s * tau) (S d) (fun k => p k + s * q k + s * s * r k)) 0
    (tau * dcf t d (fun k => INR (S d) * (p (S k) - p k)) + dcf t (S d) q).
Proof.
  set (D := fun w => dcf t d (fun k => INR (S d) * (w (S k) - w k))).
  apply (is_derive_ext (fun s : R => dcf (t + s * tau) (S d) p + s * dcf (t + s * tau) (S d) q + s * s * dcf (t + s * tau) (S d) r)).
  { intros s. eqR. transitivity (1 * dcf (t + s * tau) (S d) (fun k => 1 * p k + s * q k) + s * s * dcf (t + s * tau) (S d) r).
    - rewrite (dcf_lin _ _ p q 1 s). ring.
    - rewrite <- (dcf_lin _ _ (fun k => 1 * p k + s * q k) r 1 (s * s)). apply dcf_ext. intros. ring. }
  assert (G : forall w, is_derive (fun s : R => dcf (t + s * tau) (S d) w) 0 (tau * D w)).
  { intros w. apply (is_derive_comp (fun u : R => dcf u (S d) w) (fun s : R => t + s * tau)).
    - replace (t + 0 * tau) with t by ring. apply dcf_derive.
    - auto_derive; [exact I|]. ring. }
  assert (V : forall w : nat -> R, dcf (t + 0 * tau) (S d) w = dcf t (S d) w) by (intros; f_equal; ring).
  pose proof (G p) as Gp. pose proof (G q) as Gq. pose proof (G r) as Gr.
  evar_last.
  - apply (is_derive_plus (fun s : R => dcf (t + s * tau) (S d) p + s * dcf (t + s * tau) (S d) q)
             (fun s : R => s * s * dcf (t + s * tau) (S d) r)).
    + apply (is_derive_plus (fun s : R => dcf (t + s * tau) (S d) p) (fun s : R => s * dcf (t + s * tau) (S d) q)); [exact Gp|].
      apply (is_derive_mult (fun s : R => s) (fun s : R => dcf (t + s * tau) (S d) q)); [apply (is_derive_id (K := R_AbsRing))|exact Gq|intros; apply Rmult_comm].
    + apply (is_derive_mult (fun s : R => s * s) (fun s : R => dcf (t + s * tau) (S d) r)); [|exact Gr|intros; apply Rmult_comm].
      auto_derive; [exact I|reflexivity].
  - change (tau * D p + (1 * dcf (t + 0 * tau) (S d) q + 0 * (tau * D q)) +
      ((1 * 0 + 0 * 1) * dcf (t + 0 * tau) (S d) r + 0 * 0 * (tau * D r)) = tau * D p + dcf t (S d) q). rewrite !V. ring.
Qed.

Lemma nurb_dir d (t tau : R) (P A : arr2) (W B : arr1) c : let n := S (S d) in bezierdc t (entries n W) <> 0 ->
  is_derive (fun s : R => nurb_col (t + s * tau) n (fun k c => P k c + s * A k c) (fun k => W k + s * B k) c) 0
    (tau * nurb_diff_t_col t n P W c + sumn n (fun k => nurb_diff_p_col t n W k * A k c) + sumn n (fun k => nurb_diff_w_col t n P W k c * B k)).
Proof.
  intros n W0.
  set (p := fun k => P k c * W k). set (q := fun k => A k c * W k + P k c * B k). set (r := fun k => A k c * B k).
  pose proof (bez_dir d t tau p q r) as HN. pose proof (bez_dir d t tau W B (fun _ => 0)) as HD.
  set (Ns := fun s : R => dcf (t + s * tau) (S d) (fun k => p k + s * q k + s * s * r k)) in *.
  set (Ds := fun s : R => dcf (t + s * tau) (S d) (fun k => W k + s * B k + s * s * 0)) in *.
  assert (D0 : Ds 0 = bezierdc t (entries n W)).
  { unfold Ds, n. rewrite bez_entries. rewrite Rmult_0_l, Rplus_0_r. apply dcf_ext. intros. ring. }
  assert (N0 : Ns 0 = bezierdc t (wcol n P W c)).
  { unfold Ns, n, wcol. rewrite bez_entries. rewrite Rmult_0_l, Rplus_0_r. apply dcf_ext. intros. unfold p. ring. }
  apply (is_derive_ext (fun s => Ns s / Ds s)).
  { intros s. eqR. unfold nurb_col, Ns, Ds, wcol, n. rewrite !bez_entries. f_equal; apply dcf_ext; intros k K; unfold p, q, r; ring. }
  evar_last; [apply (is_derive_div Ns Ds); [exact HN|exact HD|rewrite D0; exact W0]|].
  rewrite D0, N0.
  assert (SQ : dcf t (S d) q = sumn n (fun k => nth k (bezier_diff_p t n) 0 * (A k c * W k)) + sumn n (fun k => nth k (bezier_diff_p t n) 0 * (P k c * B k))).
  { unfold n. rewrite <- sumn_plus, <- bez_entries, bez_entries_sum. apply sumn_ext. intros. unfold q. ring. }
  assert (SB : dcf t (S d) B = sumn n (fun k => nth k (bezier_diff_p t n) 0 * B k)).
  { unfold n. rewrite <- bez_entries, bez_entries_sum. reflexivity. }
  assert (S1 : sumn n (fun k => nurb_diff_p_col t n W k * A k c) = sumn n (fun k => nth k (bezier_diff_p t n) 0 * (A k c * W k)) * / bezierdc t (entries n W)).
  { rewrite Rmult_comm, <- sumn_scal. apply sumn_ext. intros k K. unfold nurb_diff_p_col. field. exact W0. }
  assert (S2 : sumn n (fun k => nurb_diff_w_col t n P W k c * B k) =
     sumn n (fun k => nth k (bezier_diff_p t n) 0 * (P k c * B k)) * / bezierdc t (entries n W)
     + sumn n (fun k => nth k (bezier_diff_p t n) 0 * B k) * (- nurb_col t n P W c / bezierdc t (entries n W))).
  { rewrite Rmult_comm, <- sumn_scal, (Rmult_comm (sumn n (fun k => _ * B k))), <- sumn_scal, <- sumn_plus. apply sumn_ext.
    intros k K. unfold nurb_diff_w_col. field. exact W0. }
  rewrite SQ, SB, S1, S2. unfold nurb_diff_t_col.
  assert (WD : bezierdc t (diff_step (INR n - 1) (wcol n P W c)) = dcf t d (fun k => INR (S d) * (p (S k) - p k))) by exact (bez_entries_diff t d p).
  assert (WW : bezierdc t (diff_step (INR n - 1) (entries n W)) = dcf t d (fun k => INR (S d) * (W (S k) - W k))) by exact (bez_entries_diff t d W).
  rewrite WD, WW. unfold nurb_col.
  set (X1 := sumn n _). set (X2 := sumn n _). set (X3 := sumn n _). set (w := bezierdc t (entries n W)) in *. set (v := bezierdc t (wcol n P W c)).
  set (Dp := dcf t d _). set (Dw := dcf t d _).
  field. exact W0.
Qed.

Lemma nurb_col_ext t n P P' W W' c : (forall k, P k c = P' k c) -> (forall k, W k = W' k) ->
  nurb_col t n P W c = nurb_col t n P' W' c.
Proof.
  intros HP HW. unfold nurb_col, wcol, entries.
  rewrite (map_ext (fun i => P i c * W i) (fun i => P' i c * W' i)) by (intros; rewrite HP, HW; reflexivity).
  rewrite (map_ext W W' HW). reflexivity.
Qed.
Lemma sumn_derive n (f : nat -> R -> R) (x : R) (l : nat -> R) : (forall i, (i < n)%nat -> is_derive (f i) x (l i)) ->
  is_derive (fun s => sumn n (fun i => f i s)) x (sumn n l).
Proof.
  induction n; intros H; cbn [sumn].
  - apply (is_derive_const (K := R_AbsRing) 0).
  - apply (is_derive_plus (fun s => sumn n (fun i => f i s)) (f n)); [apply IHn; auto|apply H; lia].
Qed.

(** The packed gradient against a direction. *)
Lemma fit_pack_sum N Nd n P W T h : (2 <= n)%nat -> (2 <= N)%nat ->
  sumn (fit_size N Nd n) (fun e => fit_inverse N Nd n P W T e * h e) =
  sumn n (fun k => sumn Nd (fun j => P k j * mid n k (h (Nd * (k - 1) + j)%nat))) +
  sumn n (fun k => W k * mid n k (h (Nd * (n - 2) + k - 1)%nat)) +
  sumn N (fun i => T i * mid N i (h ((Nd + 1) * (n - 2) + (i - 1))%nat)).
Proof.
  intros Hn HN. assert (E0 : ((Nd + 1) * (n - 2) = Nd * (n - 2) + (n - 2))%nat) by ring.
  unfold fit_size. replace ((Nd + 1) * (n - 2) + N - 2)%nat with (Nd * (n - 2) + (n - 2) + (N - 2))%nat by (rewrite E0; generalize (Nd * (n - 2))%nat; lia).
  rewrite !sumn_app. f_equal; [f_equal|].
  - rewrite sumn_mul, sumn_swap, (sumn_swap n Nd). apply sumn_ext. intros j J.
    rewrite (sumn_mid n (fun k => P k j) (fun k => h (Nd * (k - 1) + j)%nat)) by exact Hn.
    apply sumn_ext. intros k K. replace (k + 1 - 1)%nat with k by lia. f_equal.
    rewrite <- (fit_inverse_p N Nd n P W T (k + 1) j) by lia. f_equal. f_equal. f_equal. lia.
  - rewrite (sumn_mid n W (fun k => h (Nd * (n - 2) + k - 1)%nat)) by exact Hn. apply sumn_ext. intros k K.
    replace (Nd * (n - 2) + (k + 1) - 1)%nat with (Nd * (n - 2) + k)%nat by (generalize (Nd * (n - 2))%nat; lia). f_equal.
    rewrite <- (fit_inverse_w N Nd n P W T (k + 1)) by lia. f_equal. generalize (Nd * (n - 2))%nat; lia.
  - rewrite (sumn_mid N T (fun i => h ((Nd + 1) * (n - 2) + (i - 1))%nat)) by exact HN. apply sumn_ext. intros i I.
    rewrite <- E0.
    rewrite fit_inverse_t by exact I. do 2 f_equal. lia.
Qed.

(** The gradient handed to the optimiser by fit_nurb_points is the gradient of its cost: along every
    direction the cost changes at the rate given by the scalar product with it. *)
Theorem C58_fit_gradient tg N Nd n x h : (2 <= n)%nat -> (2 <= N)%nat ->
  (forall i, (i < N)%nat -> bezierdc (fit_t N Nd n x i) (entries n (fit_weights Nd n x)) <> 0) ->
  is_derive (fun s : R => fit_cost tg N Nd n (fun e => x e + s * h e)) 0
    (sumn (fit_size N Nd n) (fun e => fit_jac tg N Nd n x e * h e)).
Proof.
  intros Hn HN W0. destruct n as [|[|d]]; try lia. set (n := S (S d)) in *.
  set (P := fit_points tg N Nd n x). set (W := fit_weights Nd n x) in *. set (T := fit_t N Nd n x) in *.
  set (A := fun k j => mid n k (h (Nd * (k - 1) + j)%nat)). set (B := fun k => mid n k (h (Nd * (n - 2) + k - 1)%nat)).
  set (tau := fun i => mid N i (h ((Nd + 1) * (n - 2) + (i - 1))%nat)).
  assert (EP : forall s k j, fit_points tg N Nd n (fun e => x e + s * h e) k j = P k j + s * A k j).
  { intros s k j. unfold P, A, mid. rewrite !fit_points_eq. destruct ((1 <=? k)%nat && (k <? n - 1)%nat); [ring|].
    destruct (k =? n - 1)%nat; [ring|]. destruct (k =? 0)%nat; ring. }
  assert (EW : forall s k, fit_weights Nd n (fun e => x e + s * h e) k = W k + s * B k).
  { intros s k. unfold W, B, mid. rewrite !fit_weights_eq. destruct ((1 <=? k)%nat && (k <? n - 1)%nat); ring. }
  assert (ET : forall s i, fit_t N Nd n (fun e => x e + s * h e) i = T i + s * tau i).
  { intros s i. unfold T, tau, mid. rewrite !fit_t_eq. replace (1 + (N - 2))%nat with (N - 1)%nat by lia.
    destruct (Nat.eqb_spec i (N - 1)) as [->|NE].
    - rewrite Nat.ltb_irrefl, andb_false_r. ring.
    - destruct ((1 <=? i)%nat && (i <? N - 1)%nat); ring. }
  set (Df := fun i c => tau i * nurb_diff_t_col (T i) n P W c + sumn n (fun k => nurb_diff_p_col (T i) n W k * A k c) + sumn n (fun k => nurb_diff_w_col (T i) n P W k c * B k)).
  set (F := fun i c s => tg i c - nurb_col (T i + s * tau i) n (fun k c => P k c + s * A k c) (fun k => W k + s * B k) c).
  assert (FD : forall s i c, fit_diff tg N Nd n (fun e => x e + s * h e) i c = F i c s).
  { intros s i c. unfold fit_diff, F. rewrite ET. f_equal. apply nurb_col_ext; intros k; [apply EP|apply EW]. }
  assert (F0 : forall i c, F i c 0 = fit_diff tg N Nd n x i c).
  { intros i c. unfold F, fit_diff. fold P W T. rewrite Rmult_0_l, Rplus_0_r. f_equal. apply nurb_col_ext; intros k; ring. }
  apply (is_derive_ext (fun s : R => sumn N (fun i => sumn Nd (fun c => F i c s * F i c s)) * / 2)).
  { intros s. eqR. unfold fit_cost, Rdiv. f_equal. apply sumn_ext. intros i I. apply sumn_ext. intros c C. rewrite FD. ring. }
  evar_last.
  - apply (is_derive_mult (fun s : R => sumn N (fun i => sumn Nd (fun c => F i c s * F i c s))) (fun _ => / 2));
      [|apply (is_derive_const (K := R_AbsRing))|intros; apply Rmult_comm].
    apply sumn_derive. intros i I. apply sumn_derive. intros c C.
    assert (DF : is_derive (F i c) 0 (- Df i c)).
    { unfold F. evar_last; [apply (is_derive_minus (fun _ : R => tg i c) (fun s : R => nurb_col (T i + s * tau i) n (fun k c => P k c + s * A k c) (fun k => W k + s * B k) c));
        [apply (is_derive_const (K := R_AbsRing))|apply nurb_dir; apply W0; exact I]|].
      change (0 + - Df i c = - Df i c). ring. }
    apply (is_derive_mult (F i c) (F i c)); [exact DF|exact DF|intros; apply Rmult_comm].
  - change (sumn N (fun i => sumn Nd (fun c => - Df i c * F i c 0 + F i c 0 * - Df i c)) * / 2
      + sumn N (fun i => sumn Nd (fun c => F i c 0 * F i c 0)) * 0 = sumn (fit_size N Nd n) (fun e => fit_jac tg N Nd n x e * h e)).
    rewrite Rmult_0_r, Rplus_0_r, Rmult_comm, <- sumn_scal.
    unfold fit_jac. fold P W T. rewrite fit_pack_sum by assumption. fold n. fold A B tau.
    set (dfc := fit_diff tg N Nd n x) in *.
    transitivity (sumn N (fun i => sumn Nd (fun c => dfc i c * - Df i c))).
    { apply sumn_ext. intros i I. rewrite <- sumn_scal. apply sumn_ext. intros c C. rewrite F0. field. }
    transitivity (sumn N (fun i => sumn Nd (fun c => sumn n (fun k => - nurb_diff_p_col (T i) n W k * dfc i c * A k c)))
       + sumn N (fun i => sumn Nd (fun c => sumn n (fun k => dfc i c * - nurb_diff_w_col (T i) n P W k c * B k)))
       + sumn N (fun i => sumn Nd (fun c => dfc i c * - nurb_diff_t_col (T i) n P W c * tau i))).
    { rewrite <- !sumn_plus. apply sumn_ext. intros i I. rewrite <- !sumn_plus. apply sumn_ext. intros c C. unfold Df.
      rewrite (sumn_ext n (fun k => - nurb_diff_p_col (T i) n W k * dfc i c * A k c) (fun k => - dfc i c * (nurb_diff_p_col (T i) n W k * A k c))) by (intros; ring).
      rewrite (sumn_ext n (fun k => dfc i c * - nurb_diff_w_col (T i) n P W k c * B k) (fun k => - dfc i c * (nurb_diff_w_col (T i) n P W k c * B k))) by (intros; ring).
      rewrite !sumn_scal. ring. }
    f_equal; [f_equal|].
    + transitivity (sumn n (fun k => sumn Nd (fun c => sumn N (fun i => - nurb_diff_p_col (T i) n W k * dfc i c * A k c)))).
      * rewrite (sumn_ext N _ (fun i => sumn n (fun k => sumn Nd (fun c => - nurb_diff_p_col (T i) n W k * dfc i c * A k c))))
          by (intros i I; apply (sumn_swap Nd n (fun c k => - nurb_diff_p_col (T i) n W k * dfc i c * A k c))).
        rewrite (sumn_swap N n (fun i k => sumn Nd (fun c => - nurb_diff_p_col (T i) n W k * dfc i c * A k c))).
        apply sumn_ext. intros k K. apply (sumn_swap N Nd (fun i c => - nurb_diff_p_col (T i) n W k * dfc i c * A k c)).
      * apply sumn_ext. intros k K. apply sumn_ext. intros c C. rewrite Rmult_comm, <- sumn_scal. apply sumn_ext. intros. unfold A, B, tau. ring.
    + transitivity (sumn n (fun k => sumn N (fun i => sumn Nd (fun c => dfc i c * - nurb_diff_w_col (T i) n P W k c * B k)))).
      * rewrite (sumn_ext N _ (fun i => sumn n (fun k => sumn Nd (fun c => dfc i c * - nurb_diff_w_col (T i) n P W k c * B k))))
          by (intros i I; apply (sumn_swap Nd n (fun c k => dfc i c * - nurb_diff_w_col (T i) n P W k c * B k))).
        apply (sumn_swap N n (fun i k => sumn Nd (fun c => dfc i c * - nurb_diff_w_col (T i) n P W k c * B k))).
      * apply sumn_ext. intros k K. rewrite Rmult_comm, <- sumn_scal. apply sumn_ext. intros i I. rewrite <- sumn_scal. apply sumn_ext. intros. unfold A, B, tau. ring.
    + apply sumn_ext. intros i I. rewrite Rmult_comm, <- sumn_scal. apply sumn_ext. intros. unfold A, B, tau. ring.
Qed.

Lemma sumn_unit n e (f : nat -> R) : (e < n)%nat -> sumn n (fun i => f i * (if (i =? e)%nat then 1 else 0)) = f e.
Proof.
  intros H. induction n as [|n IH]; [lia|]. cbn [sumn]. destruct (Nat.eq_dec e n) as [->|N].
  - rewrite Nat.eqb_refl. rewrite (sumn_ext n _ (fun _ => 0)); [rewrite sumn_zero; ring|].
    intros i I. destruct (Nat.eqb_spec i n); [lia|ring].
  - rewrite IH by lia. destruct (Nat.eqb_spec n e); [lia|ring].
Qed.
(** In particular every entry is the partial derivative in that coordinate. *)
Corollary C58_fit_partial_derivatives tg N Nd n x e : (2 <= n)%nat -> (2 <= N)%nat -> (e < fit_size N Nd n)%nat ->
  (forall i, (i < N)%nat -> bezierdc (fit_t N Nd n x i) (entries n (fit_weights Nd n x)) <> 0) ->
  is_derive (fun s : R => fit_cost tg N Nd n (fun e' => x e' + s * (if (e' =? e)%nat then 1 else 0))) 0 (fit_jac tg N Nd n x e).
Proof.
  intros Hn HN He W0. pose proof (C58_fit_gradient tg N Nd n x (fun e' => if (e' =? e)%nat then 1 else 0) Hn HN W0) as H.
  cbv beta in H. rewrite (sumn_unit _ e (fit_jac tg N Nd n x) He) in H. exact H.
Qed.

(** *** Surfaces *)
Lemma surf_dir d r w (G : arr2) (P A : arr2) (t tau : arr1) : let m := S (S d) in
  let diff i c := G i c - bezierdc (t i) (col m P c) in
  is_derive (fun s : R => sumn r (fun i => sumn w (fun c =>
      (G i c - bezierdc (t i + s * tau i) (col m (fun k c => P k c + s * A k c) c)) * (G i c - bezierdc (t i + s * tau i) (col m (fun k c => P k c + s * A k c) c))))) 0
    (2 * (sumn m (fun k => sumn w (fun c => sumn r (fun i => - nth k (bezier_diff_p (t i) m) 0 * diff i c) * A k c)) +
          sumn r (fun i => sumn w (fun c => diff i c * - bez_diff_t_col (t i) m P c) * tau i))).
Proof.
  intros m diff.
  set (F := fun i c s => G i c - bezierdc (t i + s * tau i) (col m (fun k c => P k c + s * A k c) c)).
  set (Df := fun i c => tau i * bez_diff_t_col (t i) m P c + sumn m (fun k => nth k (bezier_diff_p (t i) m) 0 * A k c)).
  assert (F0 : forall i c, F i c 0 = diff i c).
  { intros i c. unfold F, diff, col, m. rewrite !bez_entries, Rmult_0_l, Rplus_0_r. f_equal. apply dcf_ext. intros. ring. }
  assert (DF : forall i c, is_derive (F i c) 0 (- Df i c)).
  { intros i c. pose proof (bez_dir d (t i) (tau i) (fun k => P k c) (fun k => A k c) (fun _ => 0)) as HB.
    apply (is_derive_ext (fun s : R => G i c - dcf (t i + s * tau i) (S d) (fun k => P k c + s * A k c + s * s * 0))).
    { intros s. eqR. unfold F, col, m. rewrite bez_entries. f_equal. apply dcf_ext. intros. ring. }
    evar_last; [apply (is_derive_minus (fun _ : R => G i c)); [apply (is_derive_const (K := R_AbsRing))|exact HB]|].
    assert (E1 : bez_diff_t_col (t i) m P c = dcf (t i) d (fun k => INR (S d) * (P (S k) c - P k c))) by exact (bez_entries_diff (t i) d (fun k => P k c)).
    assert (E2 : dcf (t i) (S d) (fun k => A k c) = sumn m (fun k => nth k (bezier_diff_p (t i) m) 0 * A k c)).
    { unfold m. rewrite <- bez_entries, bez_entries_sum. reflexivity. }
    match goal with |- minus _ (?a + ?b) = _ => change (0 + - (a + b) = - Df i c) end. unfold Df. rewrite E1, E2. ring. }
  evar_last.
  - apply sumn_derive. intros i I. apply sumn_derive. intros c C.
    apply (is_derive_mult (F i c) (F i c)); [apply DF|apply DF|intros; apply Rmult_comm].
  - change (sumn r (fun i => sumn w (fun c => - Df i c * F i c 0 + F i c 0 * - Df i c)) = 2 * (sumn m (fun k => sumn w (fun c => sumn r (fun i => - nth k (bezier_diff_p (t i) m) 0 * diff i c) * A k c)) +
          sumn r (fun i => sumn w (fun c => diff i c * - bez_diff_t_col (t i) m P c) * tau i))).
    transitivity (2 * (sumn r (fun i => sumn w (fun c => sumn m (fun k => - nth k (bezier_diff_p (t i) m) 0 * diff i c * A k c)))
       + sumn r (fun i => sumn w (fun c => diff i c * - bez_diff_t_col (t i) m P c * tau i)))).
    { rewrite <- sumn_plus, <- sumn_scal. apply sumn_ext. intros i I. rewrite <- sumn_plus, <- sumn_scal. apply sumn_ext. intros c C. unfold Df.
      rewrite (sumn_ext m (fun k => - nth k (bezier_diff_p (t i) m) 0 * diff i c * A k c) (fun k => - diff i c * (nth k (bezier_diff_p (t i) m) 0 * A k c))) by (intros; ring).
      rewrite sumn_scal, F0. ring. }
    f_equal. f_equal.
    + rewrite (sumn_ext r _ (fun i => sumn m (fun k => sumn w (fun c => - nth k (bezier_diff_p (t i) m) 0 * diff i c * A k c))))
          by (intros i I; apply (sumn_swap w m (fun c k => - nth k (bezier_diff_p (t i) m) 0 * diff i c * A k c))).
      rewrite (sumn_swap r m (fun i k => sumn w (fun c => - nth k (bezier_diff_p (t i) m) 0 * diff i c * A k c))).
      apply sumn_ext. intros k K. rewrite (sumn_swap r w (fun i c => - nth k (bezier_diff_p (t i) m) 0 * diff i c * A k c)).
      apply sumn_ext. intros c C. rewrite Rmult_comm, <- sumn_scal. apply sumn_ext. intros. ring.
    + apply sumn_ext. intros i I. rewrite Rmult_comm, <- sumn_scal. apply sumn_ext. intros. ring.
Qed.

Lemma flat_index c : (c / 4 * 4 + c mod 4 = c)%nat.
Proof. pose proof (Nat.div_mod c 4 ltac:(lia)). lia. Qed.
Lemma flat_unflat F i c : flat (unflat F) i c = F i c.
Proof. unfold flat, unflat. rewrite flat_index. reflexivity. Qed.
Lemma surf_inverse_fast_index n m (P : arr3) k c : (c < n * 4)%nat -> (k < m - 2)%nat ->
  surf_inverse_fast n m P (n * 4 * k + c)%nat = flat P (k + 1)%nat c.
Proof.
  intros C K. unfold surf_inverse_fast, assign_slice, flat.
  assert (C4 : (c / 4 < n)%nat) by (apply Nat.div_lt_upper_bound; lia).
  assert (M4 : (c mod 4 < 4)%nat) by (apply Nat.mod_upper_bound; lia).
  destruct (unpack_index n k (c / 4) (c mod 4) C4 M4) as (E1 & E2 & E3).
  assert (EE : (n * 4 * k + c = (k * n + c / 4) * 4 + c mod 4)%nat).
  { pose proof (flat_index c). assert ((k * n + c / 4) * 4 = n * 4 * k + c / 4 * 4)%nat by ring. lia. }
  rewrite <- EE in E1, E2, E3. set (e := (n * 4 * k + c)%nat) in *.
  assert (LT : (e < (m - 2) * n * 4)%nat).
  { assert (n * 4 * S k <= n * 4 * (m - 2))%nat by (apply Nat.mul_le_mono_l; lia).
    assert ((m - 2) * n * 4 = n * 4 * (m - 2))%nat by ring. unfold e. lia. }
  destruct (Nat.leb_spec 0 e); [|lia]. destruct (Nat.ltb_spec e (0 + (m - 2) * n * 4)); [|lia]. cbn [andb].
  rewrite Nat.sub_0_r, E1, E2, E3. reflexivity.
Qed.
Lemma surf_pack_fast n m P h : (2 <= m)%nat ->
  sumn ((m - 2) * n * 4) (fun e => surf_inverse_fast n m P e * h e) =
  sumn m (fun k => sumn (n * 4) (fun c => flat P k c * mid m k (h (n * 4 * (k - 1) + c)%nat))).
Proof.
  intros Hm. replace ((m - 2) * n * 4)%nat with (n * 4 * (m - 2))%nat by ring.
  rewrite sumn_mul, sumn_swap, (sumn_swap m (n * 4)). apply sumn_ext. intros c C.
  rewrite (sumn_mid m (fun k => flat P k c) (fun k => h (n * 4 * (k - 1) + c)%nat)) by exact Hm.
  apply sumn_ext. intros k K. rewrite surf_inverse_fast_index by assumption. do 2 f_equal. f_equal. f_equal. lia.
Qed.
Lemma flat_points tg o n m x k c s (h : arr1) : (2 <= m)%nat ->
  flat (surf_points tg o n m (fun e => x e + s * h e)) k c =
  flat (surf_points tg o n m x) k c + s * mid m k (h (n * 4 * (k - 1) + c)%nat).
Proof.
  intros Hm. unfold flat, mid, surf_points. destruct ((1 <=? k)%nat && (k <? m - 1)%nat); [|ring].
  replace (((k - 1) * n + c / 4) * 4 + c mod 4)%nat with (n * 4 * (k - 1) + c)%nat; [reflexivity|].
  pose proof (flat_index c). assert (((k - 1) * n + c / 4) * 4 = n * 4 * (k - 1) + c / 4 * 4)%nat by ring. lia.
Qed.

(** The surface solvers hand over half the gradient of their cost. *)
Theorem C58_surface_half_gradient tg o n m x h : (2 <= m)%nat -> (2 <= o)%nat ->
  is_derive (fun s : R => surf_cost tg o n m (fun e => x e + s * h e)) 0
    (2 * sumn (surf_size o n m) (fun e => surf_jac tg o n m x e * h e)).
Proof.
  intros Hm Ho. set (P := surf_points tg o n m x). set (t := surf_t n m x). set (L := ((m - 2) * n * 4)%nat).
  set (A := fun k c => mid m k (h (n * 4 * (k - 1) + c)%nat)). set (tau := fun i => h (L + i)%nat).
  assert (SZ : sumn (surf_size o n m) (fun e => surf_jac tg o n m x e * h e) =
    sumn m (fun k => sumn (n * 4) (fun c => sumn (o - 2) (fun i => - nth k (bezier_diff_p (t i) m) 0 * surf_diff tg m P t i c) * A k c)) +
    sumn (o - 2) (fun i => sumn (n * 4) (fun c => surf_diff tg m P t i c * - bez_diff_t_col (t i) m (flat P) c) * tau i)).
  { unfold surf_size. fold L. replace (L + o)%nat with (L + (o - 2) + 2)%nat by lia. rewrite !sumn_app.
    assert (Z : sumn 2 (fun i => surf_jac tg o n m x (L + (o - 2) + i)%nat * h (L + (o - 2) + i)%nat) = 0).
    { rewrite (sumn_ext 2 _ (fun _ => 0)); [apply sumn_zero|]. intros i I. unfold surf_jac.
      rewrite C57_surface_unused; [ring|exact Ho|]. unfold surf_size. fold L. lia. }
    rewrite Z, Rplus_0_r. f_equal.
    - transitivity (sumn L (fun e => surf_inverse_fast n m (surf_dp tg o m P t) e * h e)).
      + apply sumn_ext. intros e E. unfold surf_jac, surf_inverse, assign_slice. fold L. destruct (Nat.leb_spec L e); [lia|]. reflexivity.
      + unfold L. rewrite surf_pack_fast by exact Hm. apply sumn_ext. intros k K. apply sumn_ext. intros c C.
        unfold surf_dp. rewrite flat_unflat. reflexivity.
    - apply sumn_ext. intros i I. unfold surf_jac, surf_inverse, assign_slice. fold L.
      destruct (Nat.leb_spec L (L + i)); [|lia]. destruct (Nat.ltb_spec (L + i) (L + (o - 2))); [|lia]. cbn [andb].
      replace (L + i - L)%nat with i by lia. reflexivity. }
  rewrite SZ. destruct m as [|[|d]]; try lia.
  apply (is_derive_ext (fun s : R => sumn (o - 2) (fun i => sumn (n * 4) (fun c =>
      (flat tg (i + 1)%nat c - bezierdc (t i + s * tau i) (col (S (S d)) (fun k c => flat P k c + s * A k c) c)) *
      (flat tg (i + 1)%nat c - bezierdc (t i + s * tau i) (col (S (S d)) (fun k c => flat P k c + s * A k c) c)))))).
  { intros s. eqR. unfold surf_cost, surf_cost_of. apply sumn_ext. intros i I. apply sumn_ext. intros c C.
    assert (E : surf_diff tg (S (S d)) (surf_points tg o n (S (S d)) (fun e => x e + s * h e)) (surf_t n (S (S d)) (fun e => x e + s * h e)) i c =
       flat tg (i + 1)%nat c - bezierdc (t i + s * tau i) (col (S (S d)) (fun k c => flat P k c + s * A k c) c)).
    { unfold surf_diff. f_equal. unfold col. rewrite !bez_entries. apply dcf_ext. intros k K. apply flat_points. lia. }
    rewrite E. reflexivity. }
  exact (surf_dir d (o - 2) (n * 4) (fun i c => flat tg (i + 1)%nat c) (flat P) A t tau).
Qed.
Example C58_surface_half_gradient_example tg x h : is_derive (fun s : R => surf_cost tg 5 4 3 (fun e => x e + s * h e)) 0
  (2 * sumn (surf_size 5 4 3) (fun e => surf_jac tg 5 4 3 x e * h e)).
Proof. apply C58_surface_half_gradient; lia. Qed.
Theorem C58_fast_half_gradient tg o n m x h : (2 <= m)%nat -> (2 <= o)%nat ->
  is_derive (fun s : R => surf_cost_fast tg o n m (fun e => x e + s * h e)) 0
    (2 * sumn (surf_size o n m) (fun e => surf_jac_fast tg o n m x e * h e)).
Proof.
  intros Hm Ho. set (P := surf_points tg o n m x). set (t := fast_t o). set (L := ((m - 2) * n * 4)%nat).
  set (A := fun k c => mid m k (h (n * 4 * (k - 1) + c)%nat)).
  assert (SZ : sumn (surf_size o n m) (fun e => surf_jac_fast tg o n m x e * h e) =
    sumn m (fun k => sumn (n * 4) (fun c => sumn (o - 2) (fun i => - nth k (bezier_diff_p (t i) m) 0 * surf_diff tg m P t i c) * A k c)) +
    sumn (o - 2) (fun i => sumn (n * 4) (fun c => surf_diff tg m P t i c * - bez_diff_t_col (t i) m (flat P) c) * 0)).
  { unfold surf_size. fold L. rewrite !sumn_app.
    rewrite (sumn_ext o _ (fun _ => 0)).
    2:{ intros i I. unfold surf_jac_fast, surf_inverse_fast, assign_slice. fold L. destruct (Nat.ltb_spec (L + i) (0 + L)); [lia|].
        rewrite andb_false_r. ring. }
    rewrite (sumn_ext (o - 2) (fun i => _ * 0) (fun _ => 0)) by (intros; ring). rewrite !sumn_zero, !Rplus_0_r.
    unfold L, surf_jac_fast. rewrite surf_pack_fast by exact Hm. apply sumn_ext. intros k K. apply sumn_ext. intros c C.
    unfold surf_dp. rewrite flat_unflat. reflexivity. }
  rewrite SZ. destruct m as [|[|d]]; try lia.
  apply (is_derive_ext (fun s : R => sumn (o - 2) (fun i => sumn (n * 4) (fun c =>
      (flat tg (i + 1)%nat c - bezierdc (t i + s * 0) (col (S (S d)) (fun k c => flat P k c + s * A k c) c)) *
      (flat tg (i + 1)%nat c - bezierdc (t i + s * 0) (col (S (S d)) (fun k c => flat P k c + s * A k c) c)))))).
  { intros s. eqR. unfold surf_cost_fast, surf_cost_of. apply sumn_ext. intros i I. apply sumn_ext. intros c C.
    assert (E : surf_diff tg (S (S d)) (surf_points tg o n (S (S d)) (fun e => x e + s * h e)) (fast_t o) i c =
       flat tg (i + 1)%nat c - bezierdc (t i + s * 0) (col (S (S d)) (fun k c => flat P k c + s * A k c) c)).
    { unfold surf_diff. f_equal. unfold col. rewrite Rmult_0_r, Rplus_0_r, !bez_entries. apply dcf_ext. intros k K. apply flat_points. lia. }
    rewrite E. reflexivity. }
  exact (surf_dir d (o - 2) (n * 4) (fun i c => flat tg (i + 1)%nat c) (flat P) A t (fun _ => 0)).
Qed.
Example C58_fast_half_gradient_example tg x h : is_derive (fun s : R => surf_cost_fast tg 5 4 3 (fun e => x e + s * h e)) 0
  (2 * sumn (surf_size 5 4 3) (fun e => surf_jac_fast tg 5 4 3 x e * h e)).
Proof. apply C58_fast_half_gradient; lia. Qed.

Lemma derive_unique (f : R -> R) (x a b : R) : is_derive f x a -> is_derive f x b -> a = b.
Proof. intros Ha Hb. rewrite <- (is_derive_unique f x a Ha). apply is_derive_unique, Hb. Qed.
(** So an entry is right exactly where it vanishes: the stationary points are right, step sizes are not. *)
Theorem C58_surface_gradient_iff tg o n m x e : (2 <= m)%nat -> (2 <= o)%nat -> (e < surf_size o n m)%nat ->
  is_derive (fun s : R => surf_cost tg o n m (fun e' => x e' + s * (if (e' =? e)%nat then 1 else 0))) 0 (surf_jac tg o n m x e)
  <-> surf_jac tg o n m x e = 0.
Proof.
  intros Hm Ho He. pose proof (C58_surface_half_gradient tg o n m x (fun e' => if (e' =? e)%nat then 1 else 0) Hm Ho) as H.
  cbv beta in H. rewrite (sumn_unit _ e (surf_jac tg o n m x) He) in H. split.
  - intros H2. pose proof (derive_unique _ _ _ _ H H2). lra.
  - intros Z. rewrite Z in *. rewrite Rmult_0_r in H. exact H.
Qed.
Example C58_surface_gradient_iff_example tg x :
  is_derive (fun s : R => surf_cost tg 5 4 3 (fun e' => x e' + s * (if (e' =? 7)%nat then 1 else 0))) 0 (surf_jac tg 5 4 3 x 7%nat)
  <-> surf_jac tg 5 4 3 x 7%nat = 0.
Proof. apply C58_surface_gradient_iff; cbn; lia. Qed.
Theorem C58_surface_gradient_refuted : exists tg x, ~ is_derive (fun s : R => surf_cost tg 3 1 3 (fun e' => x e' + s * (if (e' =? 0)%nat then 1 else 0))) 0 (surf_jac tg 3 1 3 x 0%nat).
Proof.
  exists (fun _ _ _ => 0), (fun e => if (e =? 0)%nat then 1 else if (e =? 4)%nat then 1 / 2 else 0).
  rewrite C58_surface_gradient_iff by (cbn; lia).
  set (x := fun e : nat => _). cbv -[Rplus Rmult Rminus Ropp Rdiv Rinv IZR]. intros H. lra.
Qed.
(** A fit with three points: the hypotheses hold at the initial guess (all weights 1). *)
Example C58_example tg : forall i, (i < 4)%nat ->
  bezierdc (fit_t 4 3 3 (fun e => if (e <? 3)%nat then 5 else if (e =? 3)%nat then 1 else 1 / 3) i)
    (entries 3 (fit_weights 3 3 (fun e => if (e <? 3)%nat then 5 else if (e =? 3)%nat then 1 else 1 / 3))) <> 0 /\
  fit_points tg 4 3 3 (fun e => if (e <? 3)%nat then 5 else 1) 1%nat 2%nat = 5.
Proof.
  intros i I. split; [|reflexivity].
  destruct i as [|[|[|[|i]]]]; try lia; cbv -[Rplus Rmult Rminus Ropp Rdiv Rinv IZR]; lra.
Qed.
Example C58_fit_partial_derivatives_example tg (x := fun e => if (e <? 3)%nat then 5 else if (e =? 3)%nat then 1 else 1 / 3) :
  is_derive (fun s : R => fit_cost tg 4 3 3 (fun e' => x e' + s * (if (e' =? 4)%nat then 1 else 0))) 0 (fit_jac tg 4 3 3 x 4%nat).
Proof. apply C58_fit_partial_derivatives; [lia|lia|cbn; lia|]. intros i I. apply (C58_example tg i I). Qed.
Example C58_fit_gradient_example tg h (x := fun e => if (e <? 3)%nat then 5 else if (e =? 3)%nat then 1 else 1 / 3) :
  is_derive (fun s : R => fit_cost tg 4 3 3 (fun e => x e + s * h e)) 0
    (sumn (fit_size 4 3 3) (fun e => fit_jac tg 4 3 3 x e * h e)).
Proof. apply C58_fit_gradient; [lia|lia|]. intros i I. apply (C58_example tg i I). Qed.
Example C57_example : fit_inverse 4 2 4 (fun k j => INR (10 * k + j)) (fun k => INR (100 + k)) (fun i => INR (200 + i)) 5%nat = INR 102 /\
  surf_inverse 3 2 4 (fun i a b => INR (100 * i + 10 * a + b)) (fun _ => 0) 13%nat = INR 211.
Proof. split; reflexivity. Qed.
Example C57_surface_ends_example x v : let tg : arr3 := fun i a b => if (b =? 3)%nat then 1 else INR (i + a * b) in
  let P := surf_points tg 5 2 3 x in
  nurbezier_surface 0 v (net_points 2 3 P) (net_weights 2 3 P) =
  nurbezier v (row_points 2 (tg 0%nat)) (entries 2 (fun a => tg 0%nat a 3%nat)).
Proof.
  cbv zeta. apply C57_surface_ends; [lia| | |lia];
  cbv -[Rplus Rmult Rminus Ropp Rdiv Rinv IZR]; lra.
Qed.
Example C57_surface_unpack_pack_example tg P t : surf_points tg 5 4 3 (surf_inverse 5 4 3 P t) 1%nat 2%nat 3%nat = P 1%nat 2%nat 3%nat.
Proof. apply C57_surface_unpack_pack; lia. Qed.
Example C57_surface_unused_example P t : surf_inverse 5 4 3 P t 20%nat = 0.
Proof. apply C57_surface_unused; cbn; lia. Qed.
Example C57_surface_pack_unpack_example tg x :
  surf_inverse 5 4 3 (surf_points tg 5 4 3 x) (surf_t 4 3 x) 17%nat = x 17%nat.
Proof. apply C57_surface_pack_unpack; cbn; lia. Qed.
Example C57_fit_ends_example tg x : fit_points tg 5 3 4 x 3%nat = tg 4%nat.
Proof. apply (C57_fit_ends tg 5 3 4 x); lia. Qed.
Example C57_fit_unpack_pack_example tg P W T : fit_points tg 5 3 4 (fit_inverse 5 3 4 P W T) 2%nat 1%nat = P 2%nat 1%nat.
Proof. apply C57_fit_unpack_pack; lia. Qed.
Example C57_fit_pack_unpack_example tg x :
  fit_inverse 5 3 4 (fit_points tg 5 3 4 x) (fit_weights 3 4 x) (fit_t 5 3 4 x) 7%nat = x 7%nat.
Proof. apply C57_fit_pack_unpack; cbn; lia. Qed.

(** ** Rational curves of rows *)
Lemma rows_wpoints n Q w : wpoints (row_points n Q) (entries n w) = map (fun k => V (w k * Q k 0%nat) (w k * Q k 1%nat) (w k * Q k 2%nat)) (seq 0 n).
Proof.
  unfold row_points, entries. generalize (seq 0 n). induction l as [|k l IH]; [reflexivity|]. cbn [map wpoints]. rewrite IH. reflexivity.
Qed.
Lemma nurb_rows v n Q w : (1 <= n)%nat ->
  nurbezier v (row_points n Q) (entries n w) = V (nurb_col v n Q w 0) (nurb_col v n Q w 1) (nurb_col v n Q w 2).
Proof.
  intros Hn. unfold nurbezier. rewrite rows_wpoints.
  rewrite bezierdc_coords by (destruct n; [lia|discriminate]).
  unfold nurb_col, wcol. unfold smul. cbn [vx vy vz]. rewrite !map_map. cbn [vx vy vz].
  assert (G : forall c, map (fun k => w k * Q k c) (seq 0 n) = entries n (fun i => Q i c * w i)) by (intros c; apply map_ext; intros; ring).
  rewrite !G. unfold Rdiv. f_equal; ring.
Qed.

(** ** C84 *)
Lemma sumn_nonneg n f : (forall i, (i < n)%nat -> 0 <= f i) -> 0 <= sumn n f.
Proof. induction n; intros H; cbn; [lra|]. pose proof (IHn ltac:(auto)). pose proof (H n ltac:(lia)). lra. Qed.
Lemma sumn_zero_each n f : (forall i, (i < n)%nat -> 0 <= f i) -> sumn n f = 0 -> forall i, (i < n)%nat -> f i = 0.
Proof.
  induction n; intros H Z i I; [lia|]. cbn in Z. pose proof (sumn_nonneg n f ltac:(auto)). pose proof (H n ltac:(lia)).
  destruct (Nat.eq_dec i n) as [->|N]; [lra|]. apply IHn; [auto|lra|lia].
Qed.
Lemma surf_exact tg o n m P t : surf_cost_of tg o n m P t = 0 -> forall i a b, (i < o - 2)%nat -> (a < n)%nat -> (b < 4)%nat ->
  bezierdc (t i) (entries m (fun k => P k a b)) = tg (i + 1)%nat a b.
Proof.
  intros Z i a b I A B. unfold surf_cost_of in Z.
  assert (Zi := sumn_zero_each _ _ (fun i _ => sumn_nonneg (n * 4) (fun c => surf_diff tg m P t i c * surf_diff tg m P t i c) (fun c _ => Rle_0_sqr _)) Z i I).
  cbv beta in Zi. assert (C : (a * 4 + b < n * 4)%nat) by lia.
  pose proof (sumn_zero_each _ _ (fun c _ => Rle_0_sqr (surf_diff tg m P t i c)) Zi _ C) as D. cbv beta in D. apply Rsqr_0_uniq in D.
  unfold surf_diff, flat, col in D.
  assert (E1 : ((a * 4 + b) / 4 = a)%nat) by (symmetry; apply (Nat.div_unique _ 4 a b); lia).
  assert (E2 : ((a * 4 + b) mod 4 = b)%nat) by (symmetry; apply (Nat.mod_unique _ 4 a b); lia).
  rewrite E1, E2 in D. lra.
Qed.

Lemma net_rows (v : R) n (P : arr3) (w : arr1) (l : list nat) : (1 <= n)%nat ->
  List.Forall (fun k => entries n (fun a => P k a 3%nat) = entries n w) l ->
  map (fun pw => nurbezier v (fst pw) (snd pw)) (combine (map (fun k => row_points n (P k)) l) (map (fun k => entries n (fun a => P k a 3%nat)) l))
  = map (fun k => V (nurb_col v n (P k) w 0) (nurb_col v n (P k) w 1) (nurb_col v n (P k) w 2)) l.
Proof.
  intros Hn. induction 1 as [|k l K F IH]; [reflexivity|]. cbn [map combine fst snd]. rewrite IH, K, nurb_rows by exact Hn. reflexivity.
Qed.

(** A fit without residue reproduces the sampled sections if the weights of each column are equal. *)
Theorem C84_exact_fit tg o n m P t (w : arr1) i v : (1 <= n)%nat -> (1 <= m)%nat -> (i < o - 2)%nat ->
  surf_cost_of tg o n m P t = 0 -> (forall k a, (k < m)%nat -> (a < n)%nat -> P k a 3%nat = w a) ->
  bezierdc v (entries n w) <> 0 ->
  nurbezier_surface (t i) v (net_points n m P) (net_weights n m P) =
  nurbezier v (row_points n (tg (i + 1)%nat)) (entries n (fun a => tg (i + 1)%nat a 3%nat)).
Proof.
  intros Hn Hm I Z HW W0. destruct m as [|m']; [lia|]. set (m := S m') in *. destruct n as [|n']; [lia|]. set (n := S n') in *.
  pose proof (surf_exact tg o n m P t Z) as EX.
  assert (TW : forall a, (a < n)%nat -> tg (i + 1)%nat a 3%nat = w a).
  { intros a A. rewrite <- (EX i a 3%nat I A ltac:(lia)). unfold m. rewrite bez_entries.
    rewrite (dcf_ext (t i) m' _ (fun _ => w a)) by (intros k K; apply HW; [unfold m; lia|exact A]).
    clear. induction m' as [|k IH]; [reflexivity|]. rewrite dcf_split. cbn [dcf]. rewrite IH. unfold lerp2. cbn. ring. }
  assert (EWT : entries n (fun a => tg (i + 1)%nat a 3%nat) = entries n w).
  { unfold entries. apply map_ext_in. intros a A. apply in_seq in A. apply TW. lia. }
  assert (EWP : forall k, (k < m)%nat -> entries n (fun a => P k a 3%nat) = entries n w).
  { intros k K. unfold entries. apply map_ext_in. intros a A. apply in_seq in A. apply HW; [exact K|lia]. }
  rewrite EWT. unfold nurbezier_surface, net_points, net_weights.
  assert (Q : map (fun pw => nurbezier v (fst pw) (snd pw)) (combine (map (fun k => row_points n (P k)) (seq 0 m)) (map (fun k => entries n (fun a => P k a 3%nat)) (seq 0 m)))
     = row_points m (fun k c => nurb_col v n (P k) w c)).
  { apply net_rows. exact Hn. apply List.Forall_forall. intros k K. apply in_seq in K. apply EWP. lia. }
  assert (QW : map (fun w0 => bezier v w0) (map (fun k => entries n (fun a => P k a 3%nat)) (seq 0 m)) = entries m (fun _ => bezierdc v (entries n w))).
  { unfold entries at 2. rewrite map_map. apply map_ext_in. intros k K. apply in_seq in K. rewrite EWP by lia.
    symmetry. apply C15_decasteljau_is_bernstein_weights. unfold entries, n. discriminate. }
  rewrite Q, QW. rewrite !nurb_rows by (unfold m, n; lia).
  assert (G : forall c, (c < 3)%nat -> nurb_col (t i) m (fun k c => nurb_col v n (P k) w c) (fun _ => bezierdc v (entries n w)) c = nurb_col v n (tg (i + 1)%nat) w c).
  { intros c C. set (b := bezierdc v (entries n w)) in *.
    assert (CB : bezierdc (t i) (entries m (fun _ => b)) = b).
    { unfold m. rewrite bez_entries. clear. induction m' as [|k IH]; [reflexivity|]. rewrite dcf_split. rewrite IH. unfold lerp2. cbn. ring. }
    unfold nurb_col at 1. rewrite CB. unfold wcol at 1, m. rewrite bez_entries, dcf_bern.
    rewrite (sum_f_ext m' _ (fun k => bern m' k (t i) * sum_f_R0 (fun a => bern n' a v * (P k a c * w a)) n')).
    2:{ intros k K. f_equal. unfold nurb_col. fold b. unfold wcol, n. rewrite bez_entries, dcf_bern. field. exact W0. }
    unfold nurb_col. fold b. f_equal. unfold wcol, n. rewrite bez_entries, dcf_bern.
    rewrite <- !sumn_f_R0.
    rewrite (sumn_ext (S m') _ (fun k => sumn (S n') (fun a => bern m' k (t i) * (bern n' a v * (P k a c * w a))))).
    2:{ intros k K. rewrite <- sumn_f_R0, <- sumn_scal. reflexivity. }
    rewrite sumn_swap. apply sumn_ext. intros a A. rewrite <- (EX i a c I A ltac:(lia)). unfold m. rewrite bez_entries, dcf_bern, <- sumn_f_R0.
    transitivity (bern n' a v * w a * sumn (S m') (fun k => bern m' k (t i) * P k a c)); [|ring].
    rewrite <- sumn_scal. apply sumn_ext. intros. ring. }
  rewrite !G by lia. reflexivity.
Qed.
(** With weights that change from section to section it does not. *)
Theorem C84_varying_weights_refuted : exists tg P t v,
  surf_cost_of tg 3 1 3 P t = 0 /\ (forall k, (k < 3)%nat -> 0 < P k 0%nat 3%nat) /\
  nurbezier_surface (t 0%nat) v (net_points 1 3 P) (net_weights 1 3 P) <>
  nurbezier v (row_points 1 (tg 1%nat)) (entries 1 (fun a => tg 1%nat a 3%nat)).
Proof.
  exists (fun i _ b => match b with 0%nat => 1 | 3%nat => 3 / 2 | _ => 0 end).
  exists (fun k _ b => match b, k with 0%nat, 2%nat => 4 | 3%nat, 2%nat => 3 | 3%nat, _ => 1 | _, _ => 0 end).
  exists (fun _ => 1 / 2), 0. split; [|split].
  - cbv -[Rplus Rmult Rminus Ropp Rdiv Rinv IZR]. lra.
  - intros k K. destruct k as [|[|[|k]]]; try lia; lra.
  - intros H. apply (f_equal vx) in H. revert H. cbv -[Rplus Rmult Rminus Ropp Rdiv Rinv IZR].
    intros H. field_simplify in H. lra.
Qed.
