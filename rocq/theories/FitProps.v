(** C115, continued: fitted surfaces at which the optimiser has converged exist for every target. *)
From Coq Require Import Reals ZArith Lra Lia List Bool Arith.
From Verif Require Import Num Vec Bezier BezierLem Interp Convert ConvertProps FacesProps.
Import ListNotations.
Open Scope R_scope.

(** ** Linear least squares *)
(** Coefficients of the columns 0, ..., K - 1 of [A] (with [I] rows) whose combination is the one nearest to [y]. *)
Fixpoint lsq (I : nat) (A : nat -> nat -> R) (K : nat) (y : nat -> R) : nat -> R :=
  match K with
  | O => fun _ => 0
  | S K' =>
      let zv := lsq I A K' (fun i => A i K') in let zy := lsq I A K' y in
      let v := fun i => A i K' - sumn K' (fun j => A i j * zv j) in
      let r := fun i => y i - sumn K' (fun j => A i j * zy j) in
      let vv := sumn I (fun i => v i * v i) in
      let c := if Req_EM_T vv 0 then 0 else sumn I (fun i => r i * v i) / vv in
      fun j => if (j =? K')%nat then c else zy j - c * zv j
  end.

Lemma sumn_minus n f g : sumn n (fun i => f i - g i) = sumn n f - sumn n g.
Proof. induction n; cbn; [ring|]. rewrite IHn. ring. Qed.

(** The remainder is orthogonal to every column. *)
Lemma lsq_normal I A K : forall y k, (k < K)%nat -> sumn I (fun i => A i k * (y i - sumn K (fun j => A i j * lsq I A K y j))) = 0.
Proof.
  induction K as [|K IH]; intros y k Hk; [lia|].
  set (zv := lsq I A K (fun i => A i K)). set (zy := lsq I A K y).
  set (v := fun i => A i K - sumn K (fun j => A i j * zv j)). set (r := fun i => y i - sumn K (fun j => A i j * zy j)).
  set (vv := sumn I (fun i => v i * v i)). set (c := if Req_EM_T vv 0 then 0 else sumn I (fun i => r i * v i) / vv).
  assert (OV : forall k, (k < K)%nat -> sumn I (fun i => A i k * v i) = 0) by (intros j Hj; apply (IH (fun i => A i K) j Hj)).
  assert (OR : forall k, (k < K)%nat -> sumn I (fun i => A i k * r i) = 0) by (intros j Hj; apply (IH y j Hj)).
  assert (RES : forall i, y i - sumn (S K) (fun j => A i j * lsq I A (S K) y j) = r i - c * v i).
  { assert (ZJ : forall j, lsq I A (S K) y j = if (j =? K)%nat then c else zy j - c * zv j) by reflexivity.
    intros i. cbn [sumn]. rewrite ZJ, Nat.eqb_refl. clearbody c.
    rewrite (sumn_ext K _ (fun j => A i j * zy j - c * (A i j * zv j))).
    - rewrite sumn_minus, sumn_scal. unfold r, v. ring.
    - intros j Hj. rewrite ZJ. destruct (Nat.eqb_spec j K); [lia|ring]. }
  rewrite (sumn_ext I _ (fun i => A i k * r i - c * (A i k * v i))) by (intros i _; rewrite RES; ring). rewrite sumn_minus, sumn_scal.
  destruct (Nat.eq_dec k K) as [->|NK].
  2:{ rewrite OV, OR by lia. ring. }
  (** The new column is [v] and a combination of the columns before it. *)
  assert (SPLIT : forall f : nat -> R, (forall k, (k < K)%nat -> sumn I (fun i => A i k * f i) = 0) -> sumn I (fun i => A i K * f i) = sumn I (fun i => v i * f i)).
  { intros f OF. rewrite (sumn_ext I (fun i => A i K * f i) (fun i => v i * f i + sumn K (fun j => zv j * (A i j * f i)))).
    - rewrite sumn_plus, sumn_swap. rewrite (sumn_ext K _ (fun _ => 0)); [rewrite sumn_zero; ring|].
      intros j Hj. rewrite sumn_scal, OF by exact Hj. ring.
    - intros i _. rewrite (sumn_ext K _ (fun j => f i * (A i j * zv j))) by (intros; ring). rewrite sumn_scal. unfold v. ring. }
  rewrite (SPLIT r OR), (SPLIT v OV). fold vv. unfold c. destruct (Req_EM_T vv 0) as [Z|NZ].
  - rewrite (sumn_ext I _ (fun _ => 0)); [rewrite sumn_zero; ring|]. intros i Hi.
    pose proof (sumn_zero_each I (fun i => v i * v i) (fun i _ => Rle_0_sqr (v i)) Z i Hi) as E. cbn beta in E.
    apply Rmult_integral in E. assert (E0 : v i = 0) by (destruct E; assumption). rewrite E0. ring.
  - rewrite (sumn_ext I (fun i => r i * v i) (fun i => v i * r i)) by (intros; ring). field. exact NZ.
Qed.

(** ** The fit *)
(** Evenly spaced parameters and, for each column of coordinates, the least squares solution for the inner rows. *)
Definition best_fit (tg : arr3) (o n m : nat) : arr1 :=
  let W := fun i k => nth k (bezier_diff_p (fast_t o i) m) 0 in
  fun e => if (e <? (m - 2) * n * 4)%nat then
    let c := (e mod (n * 4))%nat in
    lsq (o - 2) (fun i k => W i (k + 1)%nat) (m - 2) (fun i => flat tg (i + 1)%nat c - W i 0%nat * flat tg 0%nat c - W i (m - 1)%nat * flat tg (o - 1)%nat c) (e / (n * 4))%nat
  else fast_t o (e - (m - 2) * n * 4)%nat.

Lemma fast_t_nth o i : (i < o - 2)%nat -> fast_t o i = INR (i + 1) / INR (o - 1).
Proof. intros H. unfold fast_t. rewrite linspace_nth by lia. field. apply not_0_INR. lia. Qed.

Theorem C115_solvable tg o n m : (2 <= m)%nat -> (2 <= o)%nat -> converged tg o n m (best_fit tg o n m).
Proof.
  intros Hm Ho. set (x := best_fit tg o n m). set (L := ((m - 2) * n * 4)%nat).
  assert (XT : forall i, surf_t n m x i = fast_t o i).
  { intros i. unfold surf_t, x, best_fit. fold L. destruct (Nat.ltb_spec (L + i) L); [lia|]. f_equal. lia. }
  split; [|split].
  - intros e He. fold L in He. assert (N0 : (n <> 0)%nat) by (intros ->; unfold L in He; lia).
    unfold surf_jac, surf_inverse, surf_inverse_fast, assign_slice. fold L.
    destruct (Nat.leb_spec L e); [lia|]. cbn [andb]. destruct (Nat.leb_spec 0 e); [|lia]. destruct (Nat.ltb_spec e (0 + L)); [|lia]. cbn [andb]. rewrite Nat.sub_0_r.
    set (k := (e / (n * 4))%nat). set (c := (e mod (n * 4))%nat).
    assert (HK : (k < m - 2)%nat). { unfold k. apply Nat.div_lt_upper_bound; [lia|]. unfold L in He. lia. }
    assert (HC : (c < n * 4)%nat) by (apply Nat.mod_upper_bound; lia).
    assert (EC : ((e / 4) mod n * 4 + e mod 4 = c)%nat).
    { unfold c. rewrite (Nat.mul_comm n 4). rewrite Nat.mod_mul_r by lia. lia. }
    unfold surf_dp, unflat. rewrite EC.
    set (W := fun i k => nth k (bezier_diff_p (fast_t o i) m) 0).
    set (y := fun i => flat tg (i + 1)%nat c - W i 0%nat * flat tg 0%nat c - W i (m - 1)%nat * flat tg (o - 1)%nat c).
    set (z := lsq (o - 2) (fun i k => W i (k + 1)%nat) (m - 2) y).
    assert (INNER : forall j, (j < m - 2)%nat -> flat (surf_points tg o n m x) (j + 1)%nat c = z j).
    { intros j Hj. unfold flat. rewrite surf_mid by lia.
      set (f := (((j + 1 - 1) * n + c / 4) * 4 + c mod 4)%nat).
      assert (EF : f = (c + j * (n * 4))%nat). { unfold f. pose proof (Nat.div_mod c 4 ltac:(lia)). replace (j + 1 - 1)%nat with j by lia. lia. }
      assert (DF : (f / (n * 4) = j)%nat) by (rewrite EF, Nat.div_add, Nat.div_small by lia; reflexivity).
      assert (MF : (f mod (n * 4) = c)%nat) by (rewrite EF, Nat.mod_add, Nat.mod_small by lia; reflexivity).
      assert (LF : (f < L)%nat). { rewrite EF. unfold L. assert (S j * (n * 4) <= (m - 2) * (n * 4))%nat by (apply Nat.mul_le_mono_r; lia). lia. }
      unfold x, best_fit. fold L. destruct (Nat.ltb_spec f L); [|lia]. cbv zeta. rewrite DF, MF. reflexivity. }
    assert (BES : forall t w, bezierdc t (entries m w) = sumn m (fun k => nth k (bezier_diff_p t m) 0 * w k)).
    { intros t w. clear - Hm. destruct m as [|d]; [lia|]. apply bez_entries_sum. }
    assert (DIFF : forall i, surf_diff tg m (surf_points tg o n m x) (surf_t n m x) i c = y i - sumn (m - 2) (fun j => W i (j + 1)%nat * z j)).
    { intros i. unfold surf_diff, col. rewrite XT, BES.
      change (fun k => nth k (bezier_diff_p (fast_t o i) m) 0 * flat (surf_points tg o n m x) k c) with (fun k => W i k * flat (surf_points tg o n m x) k c).
      replace (sumn m (fun k => W i k * flat (surf_points tg o n m x) k c)) with (sumn (1 + (m - 2 + 1)) (fun k => W i k * flat (surf_points tg o n m x) k c)) by (f_equal; lia).
      rewrite sumn_app, sumn_app. cbn [sumn]. replace (1 + (m - 2 + 0))%nat with (m - 1)%nat by lia.
      rewrite (sumn_ext (m - 2) _ (fun j => W i (j + 1)%nat * z j)).
      - unfold y, flat. rewrite surf_first, surf_last by exact Hm. ring.
      - intros j Hj. replace (1 + j)%nat with (j + 1)%nat by lia. rewrite INNER by exact Hj. reflexivity. }
    rewrite (sumn_ext (o - 2) _ (fun i => -1 * (W i (k + 1)%nat * (y i - sumn (m - 2) (fun j => W i (j + 1)%nat * z j))))).
    + rewrite sumn_scal. unfold z. rewrite (lsq_normal (o - 2) (fun i k => W i (k + 1)%nat) (m - 2) y k HK). ring.
    + intros i _. rewrite DIFF, XT. change (nth (k + 1) (bezier_diff_p (fast_t o i) m) 0) with (W i (k + 1)%nat). ring.
  - unfold entries. apply (NoDup_nth _ 0). rewrite map_length, seq_length. intros i j Hi Hj E.
    rewrite (nth_indep _ 0 (surf_t n m x 0%nat)) in E by (rewrite map_length, seq_length; assumption).
    rewrite (nth_indep (n := j) _ 0 (surf_t n m x 0%nat)) in E by (rewrite map_length, seq_length; assumption).
    rewrite !map_nth, !seq_nth, !XT, !fast_t_nth in E by lia.
    assert (D : 0 < INR (o - 1)) by (apply lt_0_INR; lia). apply (Rmult_eq_compat_r (INR (o - 1))) in E. unfold Rdiv in E. rewrite !Rmult_assoc, !Rinv_l, !Rmult_1_r in E by lra.
    apply INR_eq in E. lia.
  - intros i Hi. rewrite XT, fast_t_nth by exact Hi. assert (D : 0 < INR (o - 1)) by (apply lt_0_INR; lia).
    assert (P : 0 < INR (i + 1)) by (apply lt_0_INR; lia). assert (Q : INR (i + 1) < INR (o - 1)) by (apply lt_INR; lia). split; intros E.
    + assert (0 < INR (i + 1) / INR (o - 1)) by (apply Rdiv_lt_0_compat; assumption). lra.
    + apply (Rmult_eq_compat_r (INR (o - 1))) in E. unfold Rdiv in E. rewrite Rmult_assoc, Rinv_l in E by lra. lra.
Qed.

(** Three sections, one coordinate of one control point moving 0, 1, 4: the parabola through them is found. *)
Example C115_solvable_example : let tg : arr3 := fun i _ _ => INR i * INR i in
  converged tg 3 1 3 (best_fit tg 3 1 3) /\ surf_points tg 3 1 3 (best_fit tg 3 1 3) 1%nat 0%nat 0%nat = 0.
Proof.
  cbv zeta. split; [apply C115_solvable; lia|]. rewrite surf_mid by lia. unfold best_fit. cbn [Nat.sub Nat.mul Nat.add Nat.ltb Nat.leb].
  change (0 mod 4)%nat with 0%nat. change (0 / 4)%nat with 0%nat. cbv zeta. cbn [lsq sumn Nat.eqb Nat.sub Nat.add].
  unfold fast_t. cbn [Nat.add]. rewrite linspace_nth by lia. unfold flat. cbn [Nat.div Nat.add].
  assert (B : forall k, nth k (bezier_diff_p (0 + INR 1 * ((1 - 0) / INR (3 - 1))) 3) 0 = match k with 0%nat => / 4 | 1%nat => / 2 | 2%nat => / 4 | _ => 0 end).
  { intros k. destruct k as [|[|[|[|k]]]]; cbn; try reflexivity; field. }
  rewrite !B. replace (INR 1) with 1 by reflexivity. replace (INR 0) with 0 by reflexivity. replace (INR 2) with 2 by (cbn; ring).
  destruct (Req_EM_T _ 0) as [E|E]; [exfalso; lra|]. field_simplify; lra.
Qed.
