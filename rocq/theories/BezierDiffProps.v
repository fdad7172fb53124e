(** Properties C18-C19: the derivative functions of Bezier and rational Bezier curves. *)
From Coq Require Import Nsatz Reals Lra Psatz Lia List.
From Coquelicot Require Import Coquelicot.
From Verif Require Import Num Vec Coords Bezier BezierLem BezierProps.
Import ListNotations.
Open Scope R_scope.

Lemma dcf_lin t d (f g : nat -> R) a b :
  dcf t d (fun k => a * f k + b * g k) = a * dcf t d f + b * dcf t d g.
Proof.
  rewrite !dcf_bern, !sum_f_scal, sum_f_add. apply sum_f_ext. intros. ring.
Qed.

Lemma D_lerp (F G : R -> R) (t f g : R) : is_derive F t f -> is_derive G t g ->
  is_derive (fun t : R => (1 - t) * F t + t * G t) t (- F t + (1 - t) * f + (G t + t * g)).
Proof.
  intros HF HG. auto_derive.
  - split; [exists f; exact HF|split; [exists g; exact HG|exact I]].
  - change (Derive (fun x : R => F x) t) with (Derive F t). change (Derive (fun x : R => G x) t) with (Derive G t).
    rewrite (is_derive_unique F t f HF), (is_derive_unique G t g HG). ring.
Qed.

Lemma dcf_derive d (f : nat -> R) (t : R) :
  is_derive (fun t : R => dcf t (S d) f) t (dcf t d (fun k => (INR (S d)) * (f (S k) - f k))).
Proof.
  revert f; induction d; intros f.
  - cbn. unfold lerp2. cbn. auto_derive; [exact I|]. ring.
  - apply (is_derive_ext (fun t : R => (1 - t) * dcf t (S d) f + t * dcf t (S d) (fun k => f (S k)))).
    { intros. rewrite (dcf_split _ (S d)). reflexivity. }
    pose proof (IHd f) as D1. pose proof (IHd (fun k => f (S k))) as D2.
    evar_last.
    + apply (D_lerp _ _ _ _ _ D1 D2).
    + cbn beta.
      rewrite (dcf_ext t (S d) (fun k => INR (S (S d)) * (f (S k) - f k))
         (fun k => INR (S (S d)) * f (S k) + - INR (S (S d)) * f k)) by (intros; ring).
      rewrite (dcf_ext t d (fun k => INR (S d) * (f (S k) - f k))
         (fun k => INR (S d) * f (S k) + - INR (S d) * f k)) by (intros; ring).
      rewrite (dcf_ext t d (fun k => INR (S d) * (f (S (S k)) - f (S k)))
         (fun k => INR (S d) * f (S (S k)) + - INR (S d) * f (S k))) by (intros; ring).
      rewrite !dcf_lin, !(dcf_split t d). unfold lerp2. cbn [ladd lsc Lin_R].
      rewrite (S_INR (S d)). ring.
Qed.

Lemma bezierdc_derive (l : list R) (t : R) : l <> [] ->
  is_derive (fun t : R => bezierdc t l) t (bezierdc t (diff_step (INR (length l) - 1) l)).
Proof.
  intros N. destruct (len_S l N) as [d E]. destruct d as [|d].
  - destruct l as [|a [|b r]]; try discriminate.
    apply (is_derive_ext (fun _ : R => a)); [reflexivity|]. cbn. auto_derive; [exact I|ring].
  - apply (is_derive_ext (fun t : R => dcf t (S d) (fun k => nth k l 0))).
    { intros s. symmetry. exact (bezierdc_dcf (s : R) l (S d) E). }
    rewrite (bezierdc_dcf t _ d) by (rewrite diff_step_length; lia).
    evar_last; [apply dcf_derive|]. apply dcf_ext. intros k K.
    rewrite diff_step_nth by lia. cbn [ladd lsc lz Lin_R]. rewrite E, (S_INR (S d)). ring.
Qed.

Lemma diff_loop_length {A} `{Lin A} d n k (l : list A) : length (diff_loop d n k l) = (length l - n)%nat.
Proof. revert k l; induction n; intros; cbn; [lia|]. rewrite IHn, diff_step_length. lia. Qed.

Lemma diff_loop_S {A} `{Lin A} d n k (l : list A) :
  diff_loop d (S n) k l = diff_step (INR d - INR (k + n) - 1) (diff_loop d n k l).
Proof.
  revert k l; induction n; intros k l.
  - cbn [diff_loop]. rewrite Nat.add_0_r. reflexivity.
  - cbn [diff_loop] in *. rewrite IHn. replace (S k + n)%nat with (k + S n)%nat by lia. reflexivity.
Qed.

Lemma diff_loop_derive (l : list R) n (t : R) : (n < length l)%nat ->
  is_derive (fun t : R => bezierdc t (diff_loop (length l) n 0 l)) t
            (bezierdc t (diff_loop (length l) (S n) 0 l)).
Proof.
  intros L. rewrite diff_loop_S. cbn [Nat.add].
  evar_last; [apply bezierdc_derive|].
  - intros E. apply (f_equal (@length R)) in E. rewrite diff_loop_length in E. cbn in E. lia.
  - rewrite diff_loop_length, minus_INR by lia. reflexivity.
Qed.

Lemma Derive_n_bez (l : list R) n t : (n <= length l)%nat ->
  Derive_n (fun t => bezierdc t l) n t = bezierdc t (diff_loop (length l) n 0 l).
Proof.
  revert t; induction n; intros t L; [reflexivity|].
  cbn [Derive_n]. rewrite (Derive_ext _ (fun t => bezierdc t (diff_loop (length l) n 0 l)))
    by (intros; apply IHn; lia).
  apply is_derive_unique. apply diff_loop_derive. lia.
Qed.

Lemma is_derive_n_bez (l : list R) n t : (n <= length l)%nat ->
  is_derive_n (fun t => bezierdc t l) n t (bezierdc t (diff_loop (length l) n 0 l)).
Proof.
  destruct n; intros L; [reflexivity|]. cbn [is_derive_n].
  apply (is_derive_ext (fun t : R => bezierdc t (diff_loop (length l) n 0 l))).
  - intros. symmetry. apply Derive_n_bez. lia.
  - apply diff_loop_derive. lia.
Qed.

Lemma diff_step_map (F : vec -> R) c l :
  (forall a b, F (vadd a b) = F a + F b) -> (forall c a, F (smul c a) = c * F a) ->
  map F (diff_step c l) = diff_step c (map F l).
Proof.
  intros HA HS. induction l as [|a [|b r] IH]; try reflexivity.
  cbn [diff_step map] in *. rewrite IH. cbn [ladd lsc Lin_vec Lin_R]. rewrite HS, HA, HS. reflexivity.
Qed.

Lemma diff_loop_map (F : vec -> R) d n k l :
  (forall a b, F (vadd a b) = F a + F b) -> (forall c a, F (smul c a) = c * F a) ->
  map F (diff_loop d n k l) = diff_loop d n k (map F l).
Proof.
  intros HA HS. revert k l; induction n; intros; cbn; [reflexivity|].
  rewrite IHn, diff_step_map by assumption. reflexivity.
Qed.

(** A curve of vectors has derivative v of order n at t. *)
Definition vec_derive_n (f : R -> vec) (n : nat) (t : R) (v : vec) : Prop :=
  is_derive_n (fun s => vx (f s)) n t (vx v) /\
  is_derive_n (fun s => vy (f s)) n t (vy v) /\
  is_derive_n (fun s => vz (f s)) n t (vz v).

(** ** C18 *)
Lemma is_derive_n_ext' f g n x l : (forall t, f t = g t) -> is_derive_n f n x l -> is_derive_n g n x l.
Proof. apply is_derive_n_ext. Qed.

Theorem C18_bezier_diff_is_nth_derivative t (pts : list vec) n : (n < length pts)%nat ->
  exists v, bezier_diff_t t pts n = Ok (inl v) /\ vec_derive_n (fun s => bezierdc s pts) n t v.
Proof.
  intros L. assert (N : pts <> []) by (intros E; rewrite E in L; cbn in L; lia).
  exists (bezierdc t (diff_loop (length pts) n 0 pts)). split.
  - unfold bezier_diff_t. destruct (Nat.ltb_spec (length pts) n); [lia|].
    pose proof (diff_loop_length (length pts) n 0 pts) as LL.
    destruct (diff_loop (length pts) n 0 pts); [cbn in LL; lia|reflexivity].
  - assert (N' : diff_loop (length pts) n 0 pts <> []).
    { intros E. apply (f_equal (@length vec)) in E. rewrite diff_loop_length in E. cbn in E. lia. }
    assert (G : forall F : vec -> R, (forall a b, F (vadd a b) = F a + F b) ->
       (forall c a, F (smul c a) = c * F a) ->
       is_derive_n (fun s => F (bezierdc s pts)) n t (F (bezierdc t (diff_loop (length pts) n 0 pts)))).
    { intros F HA HS. apply (is_derive_n_ext' (fun s => bezierdc s (map F pts))).
      - intros s. symmetry. apply bezierdc_lin; assumption.
      - rewrite bezierdc_lin by assumption. rewrite diff_loop_map by assumption.
        rewrite <- (map_length F pts). apply is_derive_n_bez. rewrite map_length. lia. }
    split; [|split]; apply G; intros; reflexivity.
Qed.

Theorem C18_order_equal_to_point_count_fails t (pts : list vec) :
  bezier_diff_t t pts (length pts) = Err ValueError.
Proof.
  unfold bezier_diff_t. rewrite Nat.ltb_irrefl.
  pose proof (diff_loop_length (length pts) (length pts) 0 pts) as LL.
  destruct (diff_loop (length pts) (length pts) 0 pts); [reflexivity|cbn in LL; lia].
Qed.

(** ... although that derivative exists and is zero. *)
Theorem C18_order_equal_to_point_count_is_zero t (pts : list vec) : pts <> [] ->
  vec_derive_n (fun s => bezierdc s pts) (length pts) t ORIGIN.
Proof.
  intros N.
  assert (G : forall F : vec -> R, (forall a b, F (vadd a b) = F a + F b) ->
       (forall c a, F (smul c a) = c * F a) ->
       is_derive_n (fun s => F (bezierdc s pts)) (length pts) t 0).
  { intros F HA HS. apply (is_derive_n_ext' (fun s => bezierdc s (map F pts))).
    - intros s. symmetry. apply bezierdc_lin; assumption.
    - rewrite <- (map_length F pts).
      pose proof (is_derive_n_bez (map F pts) (length (map F pts)) t (le_n _)) as D.
      pose proof (diff_loop_length (length (map F pts)) (length (map F pts)) 0 (map F pts)) as LL.
      destruct (diff_loop _ _ 0 (map F pts)); [exact D|cbn in LL; lia]. }
  split; [|split]; apply G; intros; reflexivity.
Qed.
Example C18_order_equal_to_point_count_is_zero_example :
  vec_derive_n (fun s => bezierdc s [V 0 0 0; V 1 2 0; V 3 0 1]) 3 (1/2) ORIGIN.
Proof. apply (C18_order_equal_to_point_count_is_zero (1/2) [V 0 0 0; V 1 2 0; V 3 0 1]). discriminate. Qed.

Theorem C18_higher_orders_zero t (pts : list vec) n : (length pts < n)%nat ->
  bezier_diff_t t pts n = Ok (inr (repeat ORIGIN (length pts))).
Proof.
  intros L. unfold bezier_diff_t. destruct (Nat.ltb_spec (length pts) n); [reflexivity|lia].
Qed.
Example C18_higher_orders_zero_example :
  bezier_diff_t (1/2) [V 0 0 0; V 1 2 0; V 3 0 1] 4 = Ok (inr [ORIGIN; ORIGIN; ORIGIN]).
Proof. apply (C18_higher_orders_zero (1/2) [V 0 0 0; V 1 2 0; V 3 0 1] 4). cbn. lia. Qed.

(** rational curve *)
Lemma is_derive_n_1 f x l : is_derive_n f 1 x l <-> is_derive f x l.
Proof. split; intros H; exact H. Qed.

Theorem C18_nurbezier_diff_is_derivative t (pts : list vec) ws :
  length pts = length ws -> pts <> [] -> bezierdc t ws <> 0 ->
  vec_derive_n (fun s => nurbezier s pts ws) 1 t (nurbezier_diff_t t pts ws).
Proof.
  intros E N W.
  assert (NW : ws <> []) by (intros X; rewrite X in E; destruct pts; [contradiction|discriminate]).
  assert (LP : length (wpoints pts ws) = length pts) by (apply wpoints_length; assumption).
  assert (NP : wpoints pts ws <> []).
  { intros X. rewrite X in LP. destruct pts; [contradiction|discriminate]. }
  pose proof (bezierdc_derive ws t NW) as DW. rewrite <- E in DW.
  assert (G : forall F : vec -> R, (forall a b, F (vadd a b) = F a + F b) ->
       (forall c a, F (smul c a) = c * F a) ->
       is_derive_n (fun s => F (nurbezier s pts ws)) 1 t (F (nurbezier_diff_t t pts ws))).
  { intros F HA HS. rewrite is_derive_n_1.
    assert (NF : map F (wpoints pts ws) <> []) by (apply map_nil; assumption).
    pose proof (bezierdc_derive _ t NF) as DP. rewrite map_length, LP in DP.
    rewrite <- diff_step_map in DP by assumption.
    apply (is_derive_ext (fun s => bezierdc s (map F (wpoints pts ws)) / bezierdc s ws)).
    { intros s. unfold nurbezier. rewrite HS, (bezierdc_lin F) by assumption. apply Rmult_comm. }
    evar_last; [apply is_derive_div; [exact DP|exact DW|exact W]|].
    unfold nurbezier_diff_t.
    assert (HSub : forall a b, F (vsub a b) = F a - F b).
    { intros a b. replace (vsub a b) with (vadd a (smul (-1) b)) by (destruct a, b; vec_ring).
      rewrite HA, HS. ring. }
    rewrite HS, HSub, !HS, (bezierdc_lin F t (wpoints pts ws)) by assumption.
    destruct (Nat.eq_dec (length pts) 1) as [L1|L1].
    - (* single point: both difference arrays are empty *)
      destruct (wpoints pts ws) as [|p [|q r]]; cbn in LP; try lia.
      destruct ws as [|w [|w' ws]]; cbn in E; try lia. cbn.
      assert (Z : F ORIGIN = 0) by (rewrite <- (smul_0 ORIGIN), HS; ring). rewrite Z.
      field. exact W.
    - rewrite (bezierdc_lin F t (diff_step _ _)); [field; exact W| |assumption|assumption].
      intros X. apply (f_equal (@length vec)) in X. rewrite diff_step_length, LP in X. cbn in X.
      destruct pts as [|? [|? ?]]; cbn in *; try lia; contradiction. }
  split; [|split]; apply G; intros; reflexivity.
Qed.

Example C18_example : exists v,
  bezier_diff_t (1/2) [V 0 0 0; V 1 2 0; V 3 0 1] 2 = Ok (inl v) /\
  vec_derive_n (fun s => bezierdc s [V 0 0 0; V 1 2 0; V 3 0 1]) 2 (1/2) v.
Proof. apply C18_bezier_diff_is_nth_derivative. cbn. lia. Qed.

Example C18_example_nurb :
  vec_derive_n (fun s => nurbezier s [V 0 0 0; V 1 2 0; V 3 0 1] [1; 1/2; 1]) 1 (1/2)
   (nurbezier_diff_t (1/2) [V 0 0 0; V 1 2 0; V 3 0 1] [1; 1/2; 1]).
Proof.
  apply C18_nurbezier_diff_is_derivative; [reflexivity|discriminate|].
  unfold bezierdc. cbn. unfold lerp2. cbn. lra.
Qed.

(** ** C19 *)
(** Replacing entry k of an array. *)
Fixpoint upd {A} (k : nat) (x : A) (l : list A) : list A :=
  match l, k with
  | [], _ => []
  | _ :: r, O => x :: r
  | a :: r, S k' => a :: upd k' x r
  end.

Lemma upd_length {A} k (x : A) l : length (upd k x l) = length l.
Proof. revert k; induction l; intros [|k]; cbn; try lia. rewrite IHl. reflexivity. Qed.

Lemma upd_nth {A} k (x : A) l d i : (k < length l)%nat ->
  nth i (upd k x l) d = if Nat.eqb i k then x else nth i l d.
Proof.
  revert k i; induction l; intros k i K; cbn in K; [lia|].
  destruct k, i; cbn; try reflexivity. apply IHl. lia.
Qed.

Lemma unit_arr_nth n k i : (i < n)%nat -> nth i (unit_arr n k) 0 = if Nat.eqb i k then 1 else 0.
Proof.
  intros I. unfold unit_arr. set (f := fun i => if Nat.eqb i k then 1 else 0).
  rewrite (nth_indep _ 0 (f 0%nat)) by (rewrite map_length, seq_length; lia).
  rewrite map_nth, seq_nth by lia. reflexivity.
Qed.

Lemma unit_arr_length n k : length (unit_arr n k) = n.
Proof. unfold unit_arr. rewrite map_length, seq_length. reflexivity. Qed.

Lemma sum_f_single n k f : (k <= n)%nat ->
  sum_f_R0 (fun i => if Nat.eqb i k then f i else 0) n = f k.
Proof.
  induction n; intros K; cbn [sum_f_R0].
  - replace k with 0%nat by lia. reflexivity.
  - destruct (Nat.eq_dec k (S n)) as [->|D].
    + rewrite Nat.eqb_refl, sum_f_0; [ring|]. intros j J.
      destruct (Nat.eqb_spec j (S n)); [lia|reflexivity].
    + rewrite IHn by lia. destruct (Nat.eqb_spec (S n) k); [lia|ring].
Qed.

Lemma diff_p_nth t d k : (k <= d)%nat -> nth k (bezier_diff_p t (S d)) 0 = bern d k t.
Proof.
  intros K. unfold bezier_diff_p. set (f := fun k => bezierdc t (unit_arr (S d) k)).
  rewrite (nth_indep _ 0 (f 0%nat)) by (rewrite map_length, seq_length; lia).
  rewrite map_nth, seq_nth by lia. cbn [Nat.add]. unfold f.
  rewrite (bezierdc_sum t _ d) by apply unit_arr_length.
  rewrite <- (sum_f_single d k (fun i => bern d i t) K).
  apply sum_f_ext. intros i I. rewrite unit_arr_nth by lia. destruct (Nat.eqb i k); ring.
Qed.

Lemma sum_f_upd d k g (f : nat -> R) x : (k <= d)%nat ->
  sum_f_R0 (fun i => g i * (if Nat.eqb i k then x else f i)) d =
  sum_f_R0 (fun i => g i * f i) d + g k * (x - f k).
Proof.
  intros K. rewrite <- (sum_f_single d k (fun i => g i * (x - f i)) K), sum_f_add.
  apply sum_f_ext. intros i I. destruct (Nat.eqb i k); ring.
Qed.

(** Sensitivity of a coordinate of the curve to the same coordinate of point k. *)
Theorem C19_point_sensitivity_bezier t (l : list R) k x : (k < length l)%nat ->
  is_derive (fun x : R => bezierdc t (upd k x l)) x (nth k (bezier_diff_p t (length l)) 0).
Proof.
  intros K. destruct l as [|a0 l0]; [cbn in K; lia|]. set (l := a0 :: l0) in *.
  assert (E : length l = S (length l0)) by reflexivity. rewrite E in *. set (d := length l0) in *.
  rewrite diff_p_nth by lia.
  assert (EQ : forall y, bezierdc t l + bern d k t * (y - nth k l 0) = bezierdc t (upd k y l)).
  { intros y. rewrite (bezierdc_sum t (upd k y l) d) by (rewrite upd_length; exact E).
    rewrite (sum_f_ext d _ (fun i => bern d i t * (if Nat.eqb i k then y else nth i l 0)))
      by (intros; rewrite upd_nth by lia; reflexivity).
    rewrite sum_f_upd by lia. rewrite (bezierdc_sum t l d E). reflexivity. }
  apply (is_derive_ext (fun x : R => bezierdc t l + bern d k t * (x - nth k l 0))); [exact EQ|].
  auto_derive; [exact I|]. ring.
Qed.
Example C19_point_sensitivity_bezier_example :
  is_derive (fun x : R => bezierdc (1/2) [1; x; 5]) 2 (nth 1 (bezier_diff_p (1/2) 3) 0).
Proof. apply (C19_point_sensitivity_bezier (1/2) [1; 2; 5] 1 2). cbn. lia. Qed.

(** Rational curve: moving point k by (x - old) along a direction e moves the curve along e
    with rate nurbezier_diff_points. *)
Theorem C19_point_sensitivity_nurbezier t (pts : list vec) ws k e :
  length pts = length ws -> (k < length pts)%nat -> bezierdc t ws <> 0 -> forall x,
  vec_derive_n (fun x => nurbezier t (upd k (vadd (nth k pts ORIGIN) (smul x e)) pts) ws) 1 x
     (smul (nurbezier_diff_points t (length pts) ws k) e).
Proof.
  intros E K W x. destruct ws as [|w0 ws0]; [destruct pts; cbn in *; lia|].
  set (ws := w0 :: ws0) in *. assert (LW : length ws = S (length ws0)) by reflexivity.
  set (d := length ws0) in *. clearbody d ws. clear w0 ws0.
  assert (G : forall F : vec -> R, (forall a b, F (vadd a b) = F a + F b) ->
       (forall c a, F (smul c a) = c * F a) ->
       is_derive_n (fun x => F (nurbezier t (upd k (vadd (nth k pts ORIGIN) (smul x e)) pts) ws)) 1 x
        (F (smul (nurbezier_diff_points t (length pts) ws k) e))).
  { intros F HA HS. rewrite is_derive_n_1.
    apply (is_derive_ext (fun x : R => (F (bezierdc t (wpoints pts ws)) + bern d k t * nth k ws 0 * (x * F e)) / bezierdc t ws)).
    - intros y. match goal with |- ?a = ?b => change (@eq R a b) end. unfold nurbezier. rewrite HS.
      rewrite (wbez_sum F t (upd k _ pts) ws d) by (try rewrite upd_length; try assumption; lia).
      rewrite (wbez_sum F t pts ws d) by (try assumption; lia).
      rewrite (sum_f_ext d (fun k0 => bern d k0 t * (nth k0 ws 0 * F (nth k0 (upd k (vadd (nth k pts ORIGIN) (smul y e)) pts) ORIGIN)))
         (fun i => (bern d i t * nth i ws 0) * (if Nat.eqb i k then F (nth k pts ORIGIN) + y * F e else F (nth i pts ORIGIN)))).
      2:{ intros i I. rewrite upd_nth by lia. destruct (Nat.eqb i k); [rewrite HA, HS|]; ring. }
      rewrite sum_f_upd by lia.
      rewrite (sum_f_ext d (fun i => bern d i t * nth i ws 0 * F (nth i pts ORIGIN))
                (fun i => bern d i t * (nth i ws 0 * F (nth i pts ORIGIN)))) by (intros; ring).
      field. exact W.
    - rewrite HS. unfold nurbezier_diff_points. rewrite E, LW, diff_p_nth by lia.
      auto_derive; [exact I|]. field. exact W. }
  split; [|split]; apply G; intros; reflexivity.
Qed.
Example C19_point_sensitivity_nurbezier_example :
  let pts := [V 0 0 0; V 1 2 0; V 3 0 1] in
  vec_derive_n (fun x => nurbezier (1/2) (upd 1 (vadd (nth 1 pts ORIGIN) (smul x UP)) pts) [1; 1/2; 1]) 1 0
    (smul (nurbezier_diff_points (1/2) 3 [1; 1/2; 1] 1) UP).
Proof.
  intros pts. apply (C19_point_sensitivity_nurbezier (1/2) pts [1; 1/2; 1] 1 UP); [reflexivity|cbn; lia|].
  unfold bezierdc. cbn. unfold lerp2. cbn. lra.
Qed.

(** Sensitivity to weight k. *)
Theorem C19_weight_sensitivity t (pts : list vec) ws k :
  length pts = length ws -> (k < length pts)%nat -> bezierdc t ws <> 0 ->
  vec_derive_n (fun x => nurbezier t pts (upd k x ws)) 1 (nth k ws 0)
     (nurbezier_diff_weights t pts ws k).
Proof.
  intros E K W. destruct ws as [|w0 ws0]; [destruct pts; cbn in *; lia|].
  set (ws := w0 :: ws0) in *. assert (LW : length ws = S (length ws0)) by reflexivity.
  set (d := length ws0) in *. clearbody d ws. clear w0 ws0.
  assert (G : forall F : vec -> R, (forall a b, F (vadd a b) = F a + F b) ->
       (forall c a, F (smul c a) = c * F a) ->
       is_derive_n (fun x => F (nurbezier t pts (upd k x ws))) 1 (nth k ws 0)
        (F (nurbezier_diff_weights t pts ws k))).
  { intros F HA HS. rewrite is_derive_n_1.
    assert (HSub : forall a b, F (vsub a b) = F a - F b).
    { intros a b. replace (vsub a b) with (vadd a (smul (-1) b)) by (destruct a, b; vec_ring).
      rewrite HA, HS. ring. }
    set (num := F (bezierdc t (wpoints pts ws))). set (den := bezierdc t ws) in *.
    assert (EQ : forall y : R, (num + bern d k t * F (nth k pts ORIGIN) * (y - nth k ws 0)) /
        (den + bern d k t * (y - nth k ws 0)) = F (nurbezier t pts (upd k y ws))).
    { intros y. unfold nurbezier. rewrite HS.
      assert (D1 : bezierdc t (upd k y ws) = den + bern d k t * (y - nth k ws 0)).
      { unfold den. rewrite (bezierdc_sum t (upd k y ws) d) by (rewrite upd_length; exact LW).
        rewrite (sum_f_ext d _ (fun i => bern d i t * (if Nat.eqb i k then y else nth i ws 0)))
          by (intros; rewrite upd_nth by lia; reflexivity).
        rewrite sum_f_upd by lia. rewrite (bezierdc_sum t ws d LW). reflexivity. }
      assert (D2 : F (bezierdc t (wpoints pts (upd k y ws))) = num + bern d k t * F (nth k pts ORIGIN) * (y - nth k ws 0)).
      { unfold num. rewrite (wbez_sum F t pts (upd k y ws) d) by (try rewrite upd_length; try assumption; lia).
        rewrite (wbez_sum F t pts ws d) by (try assumption; lia).
        rewrite (sum_f_ext d _ (fun i => (bern d i t * F (nth i pts ORIGIN)) * (if Nat.eqb i k then y else nth i ws 0)))
          by (intros; rewrite upd_nth by lia; ring).
        rewrite sum_f_upd by lia. f_equal. apply sum_f_ext. intros. ring. }
      rewrite D1, D2. unfold Rdiv. ring. }
    apply (is_derive_ext (fun x : R => (num + bern d k t * F (nth k pts ORIGIN) * (x - nth k ws 0)) /
                                   (den + bern d k t * (x - nth k ws 0)))); [exact EQ|].
    unfold nurbezier_diff_weights. rewrite HSub, !HS. rewrite E, LW, diff_p_nth by lia.
      unfold nurbezier. rewrite HS. fold num den.
      assert (DZ : den + bern d k t * (nth k ws 0 - nth k ws 0) = den) by ring.
      auto_derive; [intros Z; apply W; rewrite <- DZ; unfold Rminus; exact Z|].
      replace (den + bern d k t * (nth k ws 0 + - nth k ws 0)) with den by ring.
      field. exact W. }
  split; [|split]; apply G; intros; reflexivity.
Qed.

Example C19_example :
  vec_derive_n (fun x => nurbezier (1/2) [V 0 0 0; V 1 2 0; V 3 0 1] (upd 1 x [1; 1/2; 1])) 1 (1/2)
     (nurbezier_diff_weights (1/2) [V 0 0 0; V 1 2 0; V 3 0 1] [1; 1/2; 1] 1).
Proof.
  apply (C19_weight_sensitivity (1/2) [V 0 0 0; V 1 2 0; V 3 0 1] [1; 1/2; 1] 1); [reflexivity|cbn; lia|].
  unfold bezierdc. cbn. unfold lerp2. cbn. lra.
Qed.
