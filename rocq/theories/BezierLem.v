(** Lemmas on the Bezier model. *)
From Coq Require Import Reals Lra List Lia.
From Verif Require Import Num Vec Coords Bezier.
Import ListNotations.
Open Scope R_scope.

Section Gen.
  Context {A : Type} `{Lin A}.

  Lemma dc_step_length t (l : list A) : length (dc_step t l) = (length l - 1)%nat.
  Proof. induction l as [|a [|b r] IH]; cbn in *; lia. Qed.

  Lemma diff_step_length c (l : list A) : length (diff_step c l) = (length l - 1)%nat.
  Proof. induction l as [|a [|b r] IH]; cbn in *; lia. Qed.

  Lemma dc_step_nth t (l : list A) k d : (S k < length l)%nat ->
    nth k (dc_step t l) d = lerp2 t (nth k l d) (nth (S k) l d).
  Proof.
    revert k; induction l as [|a [|b r] IH]; intros k; cbn in *; try lia.
    destruct k; [reflexivity|]. intros. rewrite IH by lia. reflexivity.
  Qed.

  Lemma diff_step_nth c (l : list A) k d : (S k < length l)%nat ->
    nth k (diff_step c l) d = lsc c (ladd (nth (S k) l d) (lsc (-1) (nth k l d))).
  Proof.
    revert k; induction l as [|a [|b r] IH]; intros k; cbn in *; try lia.
    destruct k; [reflexivity|]. intros. rewrite IH by lia. reflexivity.
  Qed.

  Lemma iter_step_length t n (l : list A) : length (iter_step t n l) = (length l - n)%nat.
  Proof.
    revert l; induction n; intros; cbn; [lia|]. rewrite IHn, dc_step_length. lia.
  Qed.

  (** functional view: d iterations on the sequence f *)
  Fixpoint dcf (t : R) (d : nat) (f : nat -> A) : A :=
    match d with O => f 0%nat | S d' => dcf t d' (fun k => lerp2 t (f k) (f (S k))) end.

  Lemma dcf_ext t d f g : (forall k, (k <= d)%nat -> f k = g k) -> dcf t d f = dcf t d g.
  Proof.
    revert f g; induction d; intros f g E; cbn.
    - apply E. lia.
    - apply IHd. intros. rewrite !E by lia. reflexivity.
  Qed.

  Lemma bezierdc_dcf t (l : list A) d : length l = S d ->
    bezierdc t l = dcf t d (fun k => nth k l lz).
  Proof.
    unfold bezierdc. intros E. rewrite E. cbn [Nat.sub]. rewrite Nat.sub_0_r.
    revert l E; induction d; intros l E; cbn.
    - destruct l; [discriminate|reflexivity].
    - rewrite IHd by (rewrite dc_step_length; lia).
      apply dcf_ext. intros. apply dc_step_nth. lia.
  Qed.

  Lemma dcf_split t d f : 
    dcf t (S d) f = lerp2 t (dcf t d f) (dcf t d (fun k => f (S k))).
  Proof. revert f; induction d; intros f; [reflexivity|]. cbn [dcf] in *. rewrite IHd. reflexivity. Qed.
End Gen.

(** Maps that respect the interpolation step pass through de Casteljau. *)
Lemma dcf_map {A B} `{Lin A} `{Lin B} (F : A -> B) t d f :
  (forall a b, F (lerp2 t a b) = lerp2 t (F a) (F b)) ->
  dcf t d (fun k => F (f k)) = F (dcf t d f).
Proof.
  intros E. revert f; induction d; intros f; [reflexivity|].
  cbn [dcf]. rewrite <- IHd. apply dcf_ext. intros. rewrite E. reflexivity.
Qed.

Lemma dc_step_map {A B} `{Lin A} `{Lin B} (F : A -> B) t l :
  (forall a b, F (lerp2 t a b) = lerp2 t (F a) (F b)) ->
  dc_step t (map F l) = map F (dc_step t l).
Proof.
  intros E. induction l as [|a [|b r] IH]; [reflexivity|reflexivity|].
  cbn [dc_step map] in *. rewrite IH, E. reflexivity.
Qed.

Lemma bezierdc_map {A B} `{Lin A} `{Lin B} (F : A -> B) t l : l <> [] ->
  (forall a b, F (lerp2 t a b) = lerp2 t (F a) (F b)) ->
  bezierdc t (map F l) = F (bezierdc t l).
Proof.
  intros N E. unfold bezierdc. rewrite map_length.
  assert (G : forall n m, iter_step t n (map F m) = map F (iter_step t n m)).
  { induction n; intros; cbn; [reflexivity|]. rewrite dc_step_map by exact E. apply IHn. }
  rewrite G.
  pose proof (iter_step_length t (length l - 1) l) as L.
  destruct (iter_step t (length l - 1) l); [|reflexivity].
  destruct l; [contradiction|]. cbn [length] in L. lia.
Qed.

Lemma vx_lerp2 t a b : vx (lerp2 t a b) = lerp2 t (vx a) (vx b). Proof. reflexivity. Qed.
Lemma vy_lerp2 t a b : vy (lerp2 t a b) = lerp2 t (vy a) (vy b). Proof. reflexivity. Qed.
Lemma vz_lerp2 t a b : vz (lerp2 t a b) = lerp2 t (vz a) (vz b). Proof. reflexivity. Qed.

Lemma bezierdc_vx t l : l <> [] -> vx (bezierdc t l) = bezierdc t (map vx l).
Proof. intros. symmetry. apply bezierdc_map; [assumption|intros; apply vx_lerp2]. Qed.
Lemma bezierdc_vy t l : l <> [] -> vy (bezierdc t l) = bezierdc t (map vy l).
Proof. intros. symmetry. apply bezierdc_map; [assumption|intros; apply vy_lerp2]. Qed.
Lemma bezierdc_vz t l : l <> [] -> vz (bezierdc t l) = bezierdc t (map vz l).
Proof. intros. symmetry. apply bezierdc_map; [assumption|intros; apply vz_lerp2]. Qed.

Lemma bezierdc_coords t l : l <> [] ->
  bezierdc t l = V (bezierdc t (map vx l)) (bezierdc t (map vy l)) (bezierdc t (map vz l)).
Proof.
  intros. rewrite <- bezierdc_vx, <- bezierdc_vy, <- bezierdc_vz by assumption.
  destruct (bezierdc t l); reflexivity.
Qed.

Lemma nth_vx k l : nth k (map vx l) 0 = vx (nth k l ORIGIN). Proof. apply (map_nth vx l ORIGIN). Qed.
Lemma nth_vy k l : nth k (map vy l) 0 = vy (nth k l ORIGIN). Proof. apply (map_nth vy l ORIGIN). Qed.
Lemma nth_vz k l : nth k (map vz l) 0 = vz (nth k l ORIGIN). Proof. apply (map_nth vz l ORIGIN). Qed.

(** Finite sums over 0..n. *)
Lemma sum_f_scal n a f : a * sum_f_R0 f n = sum_f_R0 (fun k => a * f k) n.
Proof. induction n; cbn; [reflexivity|]. rewrite <- IHn. ring. Qed.

Lemma sum_f_shift n f : sum_f_R0 f (S n) = f 0%nat + sum_f_R0 (fun k => f (S k)) n.
Proof. induction n; cbn [sum_f_R0] in *; [reflexivity|]. rewrite IHn. ring. Qed.

Lemma sum_f_add n f g : sum_f_R0 f n + sum_f_R0 g n = sum_f_R0 (fun k => f k + g k) n.
Proof. induction n; cbn; [reflexivity|]. rewrite <- IHn. ring. Qed.

Lemma sum_f_ext n f g : (forall k, (k <= n)%nat -> f k = g k) -> sum_f_R0 f n = sum_f_R0 g n.
Proof.
  intros E. induction n; cbn; [apply E; lia|]. rewrite IHn, E by (intros; try apply E; lia).
  reflexivity.
Qed.

Lemma binom_0 n : binom n 0 = 1%nat. Proof. destruct n; reflexivity. Qed.
Lemma binom_gt n k : (n < k)%nat -> binom n k = 0%nat.
Proof. revert k; induction n; intros [|k] L; try lia; cbn; [reflexivity|]. rewrite !IHn by lia. reflexivity. Qed.
Lemma binom_n n : binom n n = 1%nat.
Proof. induction n; [reflexivity|]. cbn. rewrite IHn, binom_gt by lia. reflexivity. Qed.

(** de Casteljau = Bernstein sum (scalar). *)
Lemma dcf_bern t d f : dcf t d f = sum_f_R0 (fun k => bern d k t * f k) d.
Proof.
  revert f; induction d as [|d IH]; intros f.
  - cbn. unfold bern. cbn. ring.
  - rewrite dcf_split, !IH. unfold lerp2. cbn [ladd lsc Lin_R].
    rewrite !sum_f_scal.
    transitivity (sum_f_R0 (fun k => INR (binom d k) * t ^ k * (1 - t) ^ (S d - k) * f k) (S d)
       + sum_f_R0 (fun k => INR (binom d k) * t ^ (S k) * (1 - t) ^ (d - k) * f (S k)) d).
    + f_equal.
      * cbn [sum_f_R0]. rewrite (binom_gt d (S d)) by lia. cbn [INR].
        rewrite (Rmult_assoc 0), !Rmult_0_l, Rplus_0_r.
        apply sum_f_ext. intros k Hk. unfold bern.
        replace (S d - k)%nat with (S (d - k)) by lia. cbn [pow]. ring.
      * apply sum_f_ext. intros k Hk. unfold bern. cbn [pow]. ring.
    + rewrite (sum_f_shift d (fun k => INR (binom d k) * _ * _ * _)).
      rewrite (sum_f_shift d (fun k => bern (S d) k t * f k)).
      rewrite Rplus_assoc. rewrite sum_f_add. f_equal.
      * unfold bern. rewrite !binom_0. cbn [Nat.sub]. reflexivity.
      * apply sum_f_ext. intros k Hk. unfold bern. cbn [binom Nat.sub].
        rewrite plus_INR. ring.
Qed.

Lemma bezierdc_sum t l d : length l = S d ->
  bezierdc t l = sum_f_R0 (fun k => bern d k t * nth k l 0) d.
Proof. intros E. rewrite (bezierdc_dcf t l d E). apply dcf_bern. Qed.

Lemma fold_left_add {A} (f : A -> R) l a :
  fold_left (fun o k => o + f k) l a = a + fold_right Rplus 0 (map f l).
Proof. revert a; induction l; intros; cbn; [ring|]. rewrite IHl. ring. Qed.

Lemma fold_seq_sum f n : fold_right Rplus 0 (map f (seq 0 (S n))) = sum_f_R0 f n.
Proof.
  assert (G : forall m s, fold_right Rplus 0 (map f (seq s (S m))) = sum_f_R0 (fun k => f (s + k)%nat) m).
  { induction m; intros s.
    - cbn. rewrite Nat.add_0_r. ring.
    - rewrite sum_f_shift. replace (seq s (S (S m))) with (s :: seq (S s) (S m)) by reflexivity.
      cbn [map fold_right]. rewrite IHm, Nat.add_0_r. f_equal. apply sum_f_ext. intros.
      f_equal. lia. }
  rewrite G. apply sum_f_ext. reflexivity.
Qed.

Lemma bezier_sum t (l : list R) d : length l = S d ->
  bezier t l = sum_f_R0 (fun k => bern d k t * nth k l 0) d.
Proof.
  intros E. unfold bezier. rewrite E. cbn [ladd lsc lz Lin_R].
  rewrite fold_left_add, fold_seq_sum, Rplus_0_l. apply sum_f_ext. intros. unfold bern.
  replace (S d - 1)%nat with d by lia. ring.
Qed.

Lemma bezier_coords t l : l <> [] ->
  bezier t l = V (bezier t (map vx l)) (bezier t (map vy l)) (bezier t (map vz l)).
Proof.
  intros N. unfold bezier. rewrite !map_length.
  set (n := length l). set (s := seq 0 n).
  assert (G : forall s a, (forall k, In k s -> (k < n)%nat) ->
    fold_left (fun out k => ladd out (lsc ((1 - t) ^ (n - 1 - k)) (lsc (t ^ k) (lsc (INR (binom (n - 1) k)) (nth k l lz))))) s a
    = V (fold_left (fun out k => ladd out (lsc ((1 - t) ^ (n - 1 - k)) (lsc (t ^ k) (lsc (INR (binom (n - 1) k)) (nth k (map vx l) lz))))) s (vx a))
        (fold_left (fun out k => ladd out (lsc ((1 - t) ^ (n - 1 - k)) (lsc (t ^ k) (lsc (INR (binom (n - 1) k)) (nth k (map vy l) lz))))) s (vy a))
        (fold_left (fun out k => ladd out (lsc ((1 - t) ^ (n - 1 - k)) (lsc (t ^ k) (lsc (INR (binom (n - 1) k)) (nth k (map vz l) lz))))) s (vz a))).
  { clear s. induction s as [|k s IH]; intros a HB; cbn [fold_left].
    - destruct a; reflexivity.
    - rewrite IH by (intros; apply HB; right; assumption).
      cbn [lz Lin_R Lin_vec].
      rewrite !nth_vx, !nth_vy, !nth_vz.
      reflexivity. }
  rewrite G; [reflexivity|]. intros k K. apply in_seq in K. lia.
Qed.
