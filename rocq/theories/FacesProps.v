(** C115: the faces of a cylindrical gear fit together edge to edge. *)
From Coq Require Import Reals ZArith Lra Lia List Bool Arith Permutation.
From Verif Require Import Num Vec Coords CoordsProps Transform TransformProps Bezier BezierLem BezierProps BezierDiffProps Interp Curve CurveLem ArcLem
  Chain NurbsProps Build BuildProps Convert ConvertProps NurbConvProps Faces.
Import ListNotations.
Open Scope R_scope.

(** ** Polynomials with more roots than coefficients *)
Fixpoint peval (c : list R) (s : R) : R := match c with [] => 0 | a :: r => a + s * peval r s end.
Fixpoint pdiv (r : R) (c : list R) : list R :=
  match c with
  | [] => []
  | a :: c' => match c' with [] => [] | _ => peval c' r :: pdiv r c' end
  end.
Lemma pdiv_length r c : length (pdiv r c) = (length c - 1)%nat.
Proof. induction c as [|a c IH]; [reflexivity|]. destruct c as [|b c]; [reflexivity|]. cbn [pdiv length] in *. rewrite IH. lia. Qed.
Lemma pdiv_eval r c s : peval c s = peval c r + (s - r) * peval (pdiv r c) s.
Proof.
  induction c as [|a c IH]; [cbn; ring|]. destruct c as [|b c]; [cbn; ring|].
  change (a + s * peval (b :: c) s = a + r * peval (b :: c) r + (s - r) * (peval (b :: c) r + s * peval (pdiv r (b :: c)) s)).
  rewrite IH. ring.
Qed.
Lemma pdiv_zero r c : List.Forall (fun a => a = 0) (pdiv r c) -> peval c r = 0 -> List.Forall (fun a => a = 0) c.
Proof.
  induction c as [|a c IH]; intros F E; [constructor|]. destruct c as [|b c].
  - cbn in E. constructor; [lra|constructor].
  - cbn [pdiv] in F. inversion F as [|x l X F']; subst. specialize (IH F' X).
    constructor; [|exact IH]. change (a + r * peval (b :: c) r = 0) in E. change (peval (b :: c) r = 0) in X. rewrite X in E. lra.
Qed.
Lemma peval_roots rs : forall c, NoDup rs -> (length c <= length rs)%nat -> (forall s, In s rs -> peval c s = 0) ->
  List.Forall (fun a => a = 0) c.
Proof.
  induction rs as [|r rs IH]; intros c N L H; [destruct c; [constructor|cbn in L; lia]|].
  inversion N as [|? ? NI N']; subst. apply (pdiv_zero r); [|apply H; left; reflexivity].
  apply IH; [exact N'|rewrite pdiv_length; cbn in L; lia|]. intros s I.
  assert (s <> r) by (intros ->; contradiction).
  pose proof (pdiv_eval r c s) as E. rewrite (H s), (H r) in E by (cbn; auto).
  assert (Q : (s - r) * peval (pdiv r c) s = 0) by lra. apply Rmult_integral in Q. destruct Q; [lra|assumption].
Qed.
Lemma peval_map (f : nat -> R) s a n : peval (map f (seq a n)) s = sumn n (fun k => f (a + k)%nat * s ^ k).
Proof.
  revert a. induction n as [|n IH]; intros a; [reflexivity|]. cbn [seq map peval]. rewrite IH.
  replace (S n) with (1 + n)%nat by lia. rewrite sumn_app. cbn [sumn]. rewrite <- sumn_scal.
  rewrite (sumn_ext n (fun i => f (a + (1 + i))%nat * s ^ (1 + i)) (fun i => s * (f (S a + i)%nat * s ^ i))).
  - rewrite Nat.add_0_r. cbn [pow]. ring.
  - intros i _. replace (a + (1 + i))%nat with (S a + i)%nat by lia. cbn [pow Nat.add]. ring.
Qed.
Lemma binom_pos n : forall k, (k <= n)%nat -> (0 < binom n k)%nat.
Proof. induction n as [|n IH]; intros [|k] K; cbn; try lia. assert (0 < binom n k)%nat by (apply IH; lia). lia. Qed.

(** A Bezier function whose end coefficients vanish and which vanishes at as many further parameters as it has inner
    coefficients is zero. *)
Lemma bez_unique d (D : nat -> R) (ts : list R) : D 0%nat = 0 -> D (S d) = 0 -> NoDup ts -> (d <= length ts)%nat ->
  (forall t, In t ts -> t <> 0 /\ t <> 1 /\ bezierdc t (entries (S (S d)) D) = 0) -> forall k, (k <= S d)%nat -> D k = 0.
Proof.
  intros D0 D1 ND L H.
  set (f := fun k => INR (binom (S d) k) * D k).
  assert (F : List.Forall (fun a => a = 0) (map f (seq 0 (S d)))).
  { apply (peval_roots (0 :: map (fun t => t / (1 - t)) ts)).
    - constructor.
      + intros I. apply in_map_iff in I. destruct I as (t & E & I). destruct (H t I) as (T0 & T1 & _).
        apply T0. apply (Rmult_eq_reg_r (/ (1 - t))); [unfold Rdiv in E; lra|apply Rinv_neq_0_compat; lra].
      + clear L. induction ND as [|t ts NI ND IH]; [constructor|]. cbn [map]. constructor.
        * intros I. apply in_map_iff in I. destruct I as (u & E & I). apply NI. replace t with u; [exact I|].
          destruct (H t (or_introl eq_refl)) as (_ & A & _). destruct (H u (or_intror I)) as (_ & B & _).
          assert (E2 : u * (1 - t) = t * (1 - u)).
          { transitivity (u / (1 - u) * ((1 - t) * (1 - u))); [field; lra|]. rewrite E. field. lra. }
          lra.
        * apply IH. intros v I. apply H. right. exact I.
    - cbn [length]. rewrite !map_length, seq_length. lia.
    - intros s [<-|I].
      + cbn [seq map peval]. unfold f at 1. rewrite D0. ring.
      + apply in_map_iff in I. destruct I as (t & <- & I). destruct (H t I) as (T0 & T1 & Z).
        rewrite peval_map. rewrite bez_entries, dcf_bern in Z. cbn [sum_f_R0] in Z. rewrite D1, Rmult_0_r, Rplus_0_r in Z.
        apply (Rmult_eq_reg_l ((1 - t) ^ S d)); [|apply pow_nonzero; lra]. rewrite Rmult_0_r. rewrite <- Z.
        rewrite <- sumn_scal, sumn_f_R0. apply sum_f_ext. intros k K. unfold f, bern. cbn [Nat.add].
        replace (S d) with (k + (S d - k))%nat at 1 by lia. unfold Rdiv. rewrite Rpow_mult_distr, pow_inv, pow_add by lra.
        field. apply pow_nonzero. lra. }
  intros k K. destruct (Nat.eq_dec k (S d)) as [->|NE]; [exact D1|].
  rewrite List.Forall_forall in F. assert (Z : f k = 0) by (apply F, in_map, in_seq; lia).
  unfold f in Z. apply Rmult_integral in Z. destruct Z as [Z|Z]; [|exact Z].
  exfalso. pose proof (binom_pos (S d) k ltac:(lia)) as B. apply lt_0_INR in B. lra.
Qed.

(** ** The fitted net is the same for neighbouring teeth *)
(** The optimiser has converged: the gradient it is given vanishes for every free control point (C58: it is the gradient of
    the squared error up to a factor 2), and the parameters it found are different from each other and from the ends. *)
Definition converged (tg : arr3) (o n m : nat) (x : arr1) : Prop :=
  (forall e, (e < (m - 2) * n * 4)%nat -> surf_jac tg o n m x e = 0) /\
  NoDup (entries (o - 2) (surf_t n m x)) /\
  (forall i, (i < o - 2)%nat -> surf_t n m x i <> 0 /\ surf_t n m x i <> 1).
(** Control point [a] of row [i], and its weight. *)
Definition net_pt (T : arr3) (i a : nat) : vec := V (T i a 0%nat) (T i a 1%nat) (T i a 2%nat).
Definition net_w (T : arr3) (i a : nat) : R := T i a 3%nat.

Lemma normal_eq tg o n m x k a b : (2 <= m)%nat -> (2 <= o)%nat ->
  (forall e, (e < (m - 2) * n * 4)%nat -> surf_jac tg o n m x e = 0) ->
  (1 <= k < m - 1)%nat -> (a < n)%nat -> (b < 4)%nat ->
  sumn (o - 2) (fun i => nth k (bezier_diff_p (surf_t n m x i) m) 0 *
     surf_diff tg m (surf_points tg o n m x) (surf_t n m x) i (a * 4 + b)%nat) = 0.
Proof.
  intros Hm Ho J K A B.
  pose proof (C57_surface_unpack_pack tg o n m (surf_dp tg o m (surf_points tg o n m x) (surf_t n m x))
    (surf_dt tg n m (surf_points tg o n m x) (surf_t n m x)) Hm Ho) as [U _]. cbv zeta in U.
  specialize (U k a b K A B). fold (surf_jac tg o n m x) in U. rewrite surf_mid in U by exact K.
  rewrite J in U.
  2:{ assert ((k - 1) * n + a < (m - 2) * n)%nat; [|lia].
      assert (S (k - 1) * n <= (m - 2) * n)%nat by (apply Nat.mul_le_mono_r; lia). lia. }
  unfold surf_dp, unflat in U.
  rewrite (sumn_ext _ _ (fun i => -1 * (nth k (bezier_diff_p (surf_t n m x i) m) 0 *
     surf_diff tg m (surf_points tg o n m x) (surf_t n m x) i (a * 4 + b)%nat))) in U by (intros; ring).
  rewrite sumn_scal in U. lra.
Qed.

Lemma seam_coord tg o n m x a0 a1 c0 c1 b u v : (2 <= m)%nat -> (m <= o)%nat -> (a0 < n)%nat -> (a1 < n)%nat ->
  (c0 < 4)%nat -> (c1 < 4)%nat -> (b < 4)%nat -> converged tg o n m x ->
  (forall i, (i < o)%nat -> tg i a1 b = u * tg i a0 c0 + v * tg i a0 c1) ->
  forall k, (k < m)%nat -> surf_points tg o n m x k a1 b =
    u * surf_points tg o n m x k a0 c0 + v * surf_points tg o n m x k a0 c1.
Proof.
  intros Hm Hmo A0 A1 C0 C1 B (J & ND & NE) T.
  set (P := surf_points tg o n m x). set (t := surf_t n m x).
  set (D := fun k => u * P k a0 c0 + v * P k a0 c1 - P k a1 b).
  destruct m as [|[|d]]; try lia.
  assert (D0 : D 0%nat = 0). { unfold D, P. rewrite surf_first by lia. rewrite T by lia. ring. }
  assert (D1 : D (S d) = 0).
  { unfold D, P. replace (S d) with (S (S d) - 1)%nat by lia. rewrite surf_last by lia. rewrite T by lia. ring. }
  assert (BD : forall i, (i < o - 2)%nat -> bezierdc (t i) (entries (S (S d)) D) =
    - (u * surf_diff tg (S (S d)) P t i (a0 * 4 + c0)%nat + v * surf_diff tg (S (S d)) P t i (a0 * 4 + c1)%nat -
       surf_diff tg (S (S d)) P t i (a1 * 4 + b)%nat)).
  { intros i I. unfold surf_diff, flat, col.
    assert (IX : forall a c, (c < 4)%nat -> ((a * 4 + c) / 4 = a /\ (a * 4 + c) mod 4 = c)%nat).
    { intros a c C. rewrite Nat.add_comm. split; [rewrite Nat.div_add, Nat.div_small by lia; lia|rewrite Nat.mod_add, Nat.mod_small by lia; reflexivity]. }
    destruct (IX a0 c0 C0) as [-> ->]. destruct (IX a0 c1 C1) as [-> ->]. destruct (IX a1 b B) as [-> ->].
    rewrite T by lia. rewrite !bez_entries_sum.
    set (W := fun k => nth k (bezier_diff_p (t i) (S (S d))) 0).
    assert (LIN : sumn (S (S d)) (fun k => W k * D k) =
      u * sumn (S (S d)) (fun k => W k * P k a0 c0) + v * sumn (S (S d)) (fun k => W k * P k a0 c1) - sumn (S (S d)) (fun k => W k * P k a1 b)).
    { rewrite <- !sumn_scal. unfold Rminus. replace (- sumn (S (S d)) (fun k => W k * P k a1 b)) with (-1 * sumn (S (S d)) (fun k => W k * P k a1 b)) by ring.
      rewrite <- sumn_scal, <- !sumn_plus. apply sumn_ext. intros k _. unfold D. ring. }
    unfold W in LIN. rewrite LIN. ring. }
  assert (Q : sumn (o - 2) (fun i => bezierdc (t i) (entries (S (S d)) D) * bezierdc (t i) (entries (S (S d)) D)) = 0).
  { rewrite (sumn_ext (o - 2) _ (fun i => sumn (S (S d)) (fun k => D k * (- (nth k (bezier_diff_p (t i) (S (S d))) 0 *
      (u * surf_diff tg (S (S d)) P t i (a0 * 4 + c0)%nat + v * surf_diff tg (S (S d)) P t i (a0 * 4 + c1)%nat -
       surf_diff tg (S (S d)) P t i (a1 * 4 + b)%nat)))))).
    - rewrite sumn_swap. rewrite (sumn_ext (S (S d)) _ (fun _ => 0)); [apply sumn_zero|]. intros k K.
      rewrite sumn_scal. destruct (Nat.eq_dec k 0) as [->|K0]; [rewrite D0; ring|].
      destruct (Nat.eq_dec k (S d)) as [->|K1]; [rewrite D1; ring|].
      assert (E : forall a c, (a < n)%nat -> (c < 4)%nat -> sumn (o - 2) (fun i => nth k (bezier_diff_p (t i) (S (S d))) 0 *
         surf_diff tg (S (S d)) P t i (a * 4 + c)%nat) = 0).
      { intros a c A C. apply normal_eq; try assumption; lia. }
      match goal with |- D k * ?x = 0 => replace x with 0; [ring|] end. symmetry.
      transitivity (- (u * sumn (o - 2) (fun i => nth k (bezier_diff_p (t i) (S (S d))) 0 * surf_diff tg (S (S d)) P t i (a0 * 4 + c0)%nat) +
         v * sumn (o - 2) (fun i => nth k (bezier_diff_p (t i) (S (S d))) 0 * surf_diff tg (S (S d)) P t i (a0 * 4 + c1)%nat) -
         sumn (o - 2) (fun i => nth k (bezier_diff_p (t i) (S (S d))) 0 * surf_diff tg (S (S d)) P t i (a1 * 4 + b)%nat))).
      + rewrite <- !sumn_scal. unfold Rminus.
        match goal with |- _ = - (?p + ?q + - ?r) => replace (- (p + q + - r)) with (-1 * (p + q + -1 * r)) by ring end.
        rewrite <- sumn_scal, <- !sumn_plus, <- sumn_scal. apply sumn_ext. intros i _. ring.
      + rewrite !E by assumption. ring.
    - intros i I. rewrite (BD i I) at 2. rewrite bez_entries_sum.
      rewrite Rmult_comm, <- sumn_scal. apply sumn_ext. intros k _. ring. }
  assert (Z : forall i, (i < o - 2)%nat -> bezierdc (t i) (entries (S (S d)) D) = 0).
  { intros i I. pose proof (sumn_zero_each (o - 2) _ (fun i _ => Rle_0_sqr (bezierdc (t i) (entries (S (S d)) D))) Q i I) as S0.
    unfold Rsqr in S0. apply Rmult_integral in S0. destruct S0; assumption. }
  assert (U := bez_unique d D (entries (o - 2) t) D0 D1 ND ltac:(rewrite entries_length; lia)).
  intros k K. assert (E : D k = 0).
  { apply U; [|lia]. intros w I. apply in_map_iff in I. destruct I as (i & <- & I). apply in_seq in I.
    destruct (NE i ltac:(lia)) as [N0 N1]. split; [exact N0|]. split; [exact N1|]. apply Z. lia. }
  unfold D in E. lra.
Qed.
(** If in every section control point [a1] is control point [a0] turned about the z axis, the same holds in every row of the
    fitted net. *)
Theorem C115_seam tg o n m x a0 a1 al : (2 <= m)%nat -> (m <= o)%nat -> (a0 < n)%nat -> (a1 < n)%nat -> converged tg o n m x ->
  (forall i, (i < o)%nat -> net_pt tg i a1 = mapp (rotz al) (net_pt tg i a0) /\ net_w tg i a1 = net_w tg i a0) ->
  let P := surf_points tg o n m x in
  forall k, (k < m)%nat -> net_pt P k a1 = mapp (rotz al) (net_pt P k a0) /\ net_w P k a1 = net_w P k a0.
Proof.
  intros Hm Hmo A0 A1 C T P k K.
  assert (TX : forall i, (i < o)%nat -> tg i a1 0%nat = cos al * tg i a0 0%nat + - sin al * tg i a0 1%nat).
  { intros i I. destruct (T i I) as [E _]. apply (f_equal vx) in E. cbn in E. lra. }
  assert (TY : forall i, (i < o)%nat -> tg i a1 1%nat = sin al * tg i a0 0%nat + cos al * tg i a0 1%nat).
  { intros i I. destruct (T i I) as [E _]. apply (f_equal vy) in E. cbn in E. lra. }
  assert (TZ : forall i, (i < o)%nat -> tg i a1 2%nat = 1 * tg i a0 2%nat + 0 * tg i a0 2%nat).
  { intros i I. destruct (T i I) as [E _]. apply (f_equal vz) in E. cbn in E. lra. }
  assert (TW : forall i, (i < o)%nat -> tg i a1 3%nat = 1 * tg i a0 3%nat + 0 * tg i a0 3%nat).
  { intros i I. destruct (T i I) as [_ E]. unfold net_w in E. lra. }
  assert (EX := seam_coord tg o n m x a0 a1 0 1 0 _ _ Hm Hmo A0 A1 ltac:(lia) ltac:(lia) ltac:(lia) C TX k K).
  assert (EY := seam_coord tg o n m x a0 a1 0 1 1 _ _ Hm Hmo A0 A1 ltac:(lia) ltac:(lia) ltac:(lia) C TY k K).
  assert (EZ := seam_coord tg o n m x a0 a1 2 2 2 _ _ Hm Hmo A0 A1 ltac:(lia) ltac:(lia) ltac:(lia) C TZ k K).
  assert (EW := seam_coord tg o n m x a0 a1 3 3 3 _ _ Hm Hmo A0 A1 ltac:(lia) ltac:(lia) ltac:(lia) C TW k K).
  fold P in EX, EY, EZ, EW. split.
  - unfold net_pt. rewrite EX, EY, EZ. apply vec_eq; cbn; ring.
  - unfold net_w. rewrite EW. ring.
Qed.

(** ** Edges *)
(** The boundary curves of a patch: its outer columns and rows. *)
Definition left_edge (f : face) : bez_edge := (map (hd ORIGIN) (fst f), map (hd 0) (snd f)).
Definition right_edge (f : face) : bez_edge := (map (fun r => last r ORIGIN) (fst f), map (fun r => last r 0) (snd f)).
Definition bottom_edge (f : face) : bez_edge := (hd [] (fst f), hd [] (snd f)).
Definition top_edge (f : face) : bez_edge := (last (fst f) [], last (snd f) []).
(** An edge of the shell: a Bezier curve or a circle about the z axis (radius, height). *)
Inductive edge : Type := Bez (e : bez_edge) | Circ (r z : R).
Definition face_edges (f : face) : list edge := [Bez (left_edge f); Bez (right_edge f); Bez (bottom_edge f); Bez (top_edge f)].
Definition cover_edges (c : cover) : list edge :=
  map Bez (cv_wire c) ++ match cv_circle c with Some (r, z) => [Circ r z] | None => [] end.
Definition ring_edges (o : option (R * R * R)) : list edge :=
  match o with Some (r, z0, z1) => [Circ r z0; Circ r z1] | None => [] end.
Definition all_edges (c : cylinder) : list edge :=
  flat_map face_edges (cy_sides c) ++ cover_edges (cy_bottom c) ++ cover_edges (cy_top c) ++ ring_edges (cy_ring c).
(** No free edge: the edges fall into pairs of equal ones. *)
Definition paired (l : list edge) : Prop := exists h, Permutation l (h ++ h).

(** *** Lists *)
Lemma map_flat_map {A B C} (f : B -> C) (g : A -> list B) l : map f (flat_map g l) = flat_map (fun x => map f (g x)) l.
Proof. induction l as [|a l IH]; [reflexivity|]. cbn [flat_map]. rewrite map_app, IH. reflexivity. Qed.
Lemma flat_map_ext_in {A B} (f g : A -> list B) l : (forall a, In a l -> f a = g a) -> flat_map f l = flat_map g l.
Proof. intros H. induction l as [|a l IH]; [reflexivity|]. cbn [flat_map]. rewrite H, IH; [reflexivity| |left; reflexivity]. intros b I. apply H. right. exact I. Qed.
Lemma flat_map_app_perm {A B} (f g : A -> list B) l :
  Permutation (flat_map (fun x => f x ++ g x) l) (flat_map f l ++ flat_map g l).
Proof.
  induction l as [|a l IH]; [reflexivity|]. cbn [flat_map]. rewrite IH. rewrite <- !app_assoc. apply Permutation_app_head.
  rewrite !app_assoc. apply Permutation_app_tail, Permutation_app_comm.
Qed.
Lemma flat_map_perm {A B} (f g : A -> list B) l : (forall a, In a l -> Permutation (f a) (g a)) -> Permutation (flat_map f l) (flat_map g l).
Proof. intros H. induction l as [|a l IH]; [reflexivity|]. cbn [flat_map]. apply Permutation_app; [apply H; left; reflexivity|]. apply IH. intros b I. apply H. right. exact I. Qed.
Lemma flat_map_nil {A B} (l : list A) : flat_map (fun _ => @nil B) l = [].
Proof. induction l; [reflexivity|assumption]. Qed.
Lemma flat_map_swap {A B C} (f : A -> B -> list C) la lb :
  Permutation (flat_map (fun a => flat_map (f a) lb) la) (flat_map (fun b => flat_map (fun a => f a b) la) lb).
Proof.
  induction la as [|a la IH]; cbn [flat_map]; [rewrite flat_map_nil; reflexivity|].
  rewrite IH. symmetry. apply (flat_map_app_perm (f a) (fun b => flat_map (fun a0 => f a0 b) la)).
Qed.
Lemma exchange {A B} (a b : A -> B) (r l : A -> list B) js : (forall j, In j js -> Permutation (a j :: r j) (b j :: l j)) ->
  Permutation (map a js ++ flat_map r js) (map b js ++ flat_map l js).
Proof.
  induction js as [|j js IH]; intros H; [reflexivity|]. cbn [map flat_map].
  transitivity ((a j :: r j) ++ (map a js ++ flat_map r js)).
  { cbn. constructor. rewrite !app_assoc. apply Permutation_app_tail, Permutation_app_comm. }
  transitivity ((b j :: l j) ++ (map b js ++ flat_map l js)).
  { apply Permutation_app; [apply H; left; reflexivity|]. apply IH. intros i I. apply H. right. exact I. }
  cbn. constructor. rewrite !app_assoc. apply Permutation_app_tail, Permutation_app_comm.
Qed.
Lemma seq_ends n : 0%nat :: seq 1 n = seq 0 n ++ [n].
Proof. change (seq 0 (S n) = seq 0 n ++ [n]). rewrite seq_S. reflexivity. Qed.
(** Going round: the left ends of all pieces are the right ends. *)
Lemma round {B} (g : nat -> nat -> B) np N : (forall j, (j < N)%nat -> g j np = g (S j) 0%nat) -> g N 0%nat = g 0%nat 0%nat ->
  Permutation (flat_map (fun j => map (g j) (seq 0 np)) (seq 0 N)) (flat_map (fun j => map (fun i => g j (S i)) (seq 0 np)) (seq 0 N)).
Proof.
  intros H E. apply (Permutation_app_inv_l (map (fun j => g (S j) 0%nat) (seq 0 N))).
  assert (XY : Permutation (map (fun j => g j 0%nat) (seq 0 N)) (map (fun j => g (S j) 0%nat) (seq 0 N))).
  { apply (Permutation_cons_inv (a := g 0%nat 0%nat)). rewrite <- (map_map S (fun j => g j 0%nat)), seq_shift.
    change (g 0%nat 0%nat :: map (fun j => g j 0%nat) (seq 1 N)) with (map (fun j => g j 0%nat) (0%nat :: seq 1 N)).
    rewrite seq_ends, map_app. cbn [map]. rewrite E. apply Permutation_cons_append. }
  transitivity (map (fun j => g j 0%nat) (seq 0 N) ++ flat_map (fun j => map (fun i => g j (S i)) (seq 0 np)) (seq 0 N)).
  2:{ apply Permutation_app_tail, XY. }
  symmetry. apply exchange. intros j J. apply in_seq in J.
  rewrite <- (map_map S (g j)), seq_shift. change (g j 0%nat :: map (g j) (seq 1 np)) with (map (g j) (0%nat :: seq 1 np)).
  rewrite seq_ends, map_app. cbn [map]. rewrite H by lia. symmetry. apply Permutation_cons_append.
Qed.
(** Going up: the lower ends of all pieces and the last upper end are the upper ends and the first lower end. *)
Lemma climb {B} (F : nat -> list B) n : Permutation (flat_map F (seq 0 n) ++ F n) (flat_map (fun k => F (S k)) (seq 0 n) ++ F 0%nat).
Proof.
  assert (E : flat_map F (seq 0 n) ++ F n = F 0%nat ++ flat_map (fun k => F (S k)) (seq 0 n)).
  { replace (flat_map (fun k => F (S k)) (seq 0 n)) with (flat_map F (seq 1 n)).
    - change (F 0%nat ++ flat_map F (seq 1 n)) with (flat_map F (0%nat :: seq 1 n)). rewrite seq_ends, flat_map_app. cbn [flat_map]. rewrite app_nil_r. reflexivity.
    - rewrite <- seq_shift, !flat_map_concat_map, map_map. reflexivity. }
  rewrite E. apply Permutation_app_comm.
Qed.
Lemma res_map_ok {A B} (f : A -> res B) (g : A -> B) l : (forall a, In a l -> f a = Ok (g a)) -> res_map f l = Ok (map g l).
Proof.
  intros H. induction l as [|a l IH]; [reflexivity|]. cbn [res_map map]. rewrite H by (left; reflexivity). cbn [bind].
  rewrite IH; [reflexivity|]. intros b I. apply H. right. exact I.
Qed.

(** *** Turned faces *)
Definition spin (a : R) (e : bez_edge) : bez_edge := (map (mapp (rotz a)) (fst e), snd e).
Lemma spin_ORIGIN a : mapp (rotz a) ORIGIN = ORIGIN.
Proof. apply vec_eq; cbn; ring. Qed.
Lemma turn_spin p j e : turn_edge (p * INR j * 180 / PI) e = spin (INR j * p) e /\ turn_edge (p * 180 / PI * INR j) e = spin (INR j * p) e.
Proof.
  pose proof PI_RGT_0. unfold turn_edge, spin, to_rad. split; do 2 f_equal; f_equal; f_equal; field; lra.
Qed.
Lemma spin_spin a b e : spin a (spin b e) = spin (a + b) e.
Proof.
  unfold spin. cbn [fst snd]. rewrite map_map. f_equal. apply map_ext. intros p. rewrite <- rotz_plus, mapp_mmul. reflexivity.
Qed.
Lemma hd_map_spin a r : hd ORIGIN (map (mapp (rotz a)) r) = mapp (rotz a) (hd ORIGIN r).
Proof. destruct r; [symmetry; apply spin_ORIGIN|reflexivity]. Qed.
Lemma last_map_spin a r : last (map (mapp (rotz a)) r) ORIGIN = mapp (rotz a) (last r ORIGIN).
Proof.
  induction r as [|p r IH]; [symmetry; apply spin_ORIGIN|]. destruct r as [|q r]; [reflexivity|]. exact IH.
Qed.
Lemma last_map_nil {A B} (g : A -> B) l : last (map (map g) l) [] = map g (last l []).
Proof. induction l as [|x l IH]; [reflexivity|]. destruct l; [reflexivity|exact IH]. Qed.
Lemma turned_edges p j f : let d := p * INR j * 180 / PI in
  left_edge (turn_face d f) = spin (INR j * p) (left_edge f) /\ right_edge (turn_face d f) = spin (INR j * p) (right_edge f) /\
  bottom_edge (turn_face d f) = spin (INR j * p) (bottom_edge f) /\ top_edge (turn_face d f) = spin (INR j * p) (top_edge f).
Proof.
  intros d. assert (E : to_rad d = INR j * p).
  { pose proof PI_RGT_0. unfold d, to_rad. field. lra. }
  unfold turn_face, left_edge, right_edge, bottom_edge, top_edge, spin. rewrite E. cbn [fst snd]. rewrite !map_map. repeat split.
  - f_equal. apply map_ext. intros r. apply hd_map_spin.
  - f_equal. apply map_ext. intros r. apply last_map_spin.
  - f_equal. destruct (fst f); reflexivity.
  - f_equal. apply last_map_nil.
Qed.

(** *** Patches *)
Definition column (pts : list (list vec)) (ws : list (list R)) (u : nat) : bez_edge :=
  (map (fun r => nth u r ORIGIN) pts, map (fun r => nth u r 0) ws).
Lemma ascending_le a l b : ascending a l b -> (a <= b)%nat.
Proof. revert a. induction l as [|x l IH]; intros a H; cbn in H; [lia|]. destruct H as [H1 H2]. apply IH in H2. lia. Qed.
Lemma patch_columns pts ws r : forall a b, ascending a r b -> List.Forall (fun row => (b < length row)%nat) pts ->
  List.Forall (fun row => (b < length row)%nat) ws ->
  map left_edge (get_patches pts ws (a :: r)) = map (column pts ws) (removelast (a :: r)) /\
  map right_edge (get_patches pts ws (a :: r)) = map (column pts ws) r.
Proof.
  induction r as [|x r IH]; intros a b A FP FW; [split; reflexivity|]. destruct A as [A1 A2].
  destruct (IH x b A2 FP FW) as [IL IR]. pose proof (ascending_le x r b A2) as XB.
  change (get_patches pts ws (a :: x :: r)) with ((map (fun row => slice row a (x + 1)) pts, map (fun row => slice row a (x + 1)) ws) :: get_patches pts ws (x :: r)).
  change (removelast (a :: x :: r)) with (a :: removelast (x :: r)). cbn [map]. rewrite IL, IR. split; f_equal.
  - unfold left_edge, column. cbn [fst snd]. rewrite !map_map. f_equal; apply map_ext; intros row; apply slice_hd; lia.
  - unfold right_edge, column. cbn [fst snd]. rewrite !map_map. rewrite List.Forall_forall in FP, FW.
    f_equal; apply map_ext_in; intros row I; replace (x + 1)%nat with (S x) by lia; apply slice_last; [specialize (FP row I)|specialize (FW row I)]; lia.
Qed.

(** ** Sections *)
(** Where the outline of a tooth begins. *)
Definition outline_start (p : cv_profile) : vec := fst (hd (ORIGIN, ORIGIN) (route p)).
(** A section that repeats: its curves run head to tail, the three curves of the outside ring are active, the outline of the
    tooth ends where that of the next tooth begins, and the section is placed on the z axis without tilting. *)
Definition regular_section (p : cv_profile) (T : gtransform) (pitch : R) : Prop :=
  all_convertible p /\ existsb (fun i => c_act (cv_curve i)) (cp_tooth p) = true /\ connected (route p) /\ ring_active p = true /\
  ends (cp_ro2 p) = mapp (rotz pitch) (outline_start p) /\
  g_orient T = UNIT3X3 /\ vx (g_center T) = 0 /\ vy (g_center T) = 0.

Lemma place_spin T a p : g_orient T = UNIT3X3 -> vx (g_center T) = 0 -> vy (g_center T) = 0 ->
  apply_gear_transform (mapp (rotz a) p) T = mapp (rotz a) (apply_gear_transform p T).
Proof.
  intros O X Y. rewrite !apply_gear_transform_eq, O, !mapp_I. rewrite <- !mapp_mmul, rotz_comm, mapp_mmul.
  destruct (g_center T) as [cx cy cz]. cbn [vx vy] in X, Y. subst. generalize (mapp (rotz (g_angle T)) p). intros q.
  apply vec_eq; cbn; ring.
Qed.

Lemma surface_members_app a b : surface_members (a ++ b) = surface_members a ++ surface_members b.
Proof. unfold surface_members. rewrite filter_app, map_app. reflexivity. Qed.
Lemma nth_hd {A} (l : list A) d : nth 0 l d = hd d l.
Proof. destruct l; reflexivity. Qed.
Lemma nth_last {A} (l : list A) d : nth (length l - 1) l d = last l d.
Proof.
  induction l as [|a l IH]; [reflexivity|]. destruct l as [|b l]; [reflexivity|].
  change (last (a :: b :: l) d) with (last (b :: l) d). rewrite <- IH. cbn [length Nat.sub]. rewrite Nat.sub_0_r. reflexivity.
Qed.
Lemma points_hd c : chain_ok c -> hd ORIGIN (nb_points c) = hd ORIGIN (fst (hd ([], []) c)) /\
  hd 0 (nb_weights c) = hd 0 (snd (hd ([], []) c)) /\ hd 0%nat (nb_knots c) = 0%nat.
Proof.
  intros [N F]. destruct c as [|m c]; [contradiction|]. inversion F as [|? ? [L LW] _]; subst. cbn [hd].
  destruct m as [[|p [|q ps]] [|w [|v ws]]]; cbn in L, LW; try lia. unfold nb_points, nb_weights. cbn [flat_map fst snd removelast app hd]. auto.
Qed.

Section Sect.
  Variables (optC : curve -> arr2 -> arr1) (nhz : nat) (ratio : R) (prof : R -> cv_profile) (trf : R -> gtransform) (pitch : R).
  Hypotheses (Hn : (2 <= nhz)%nat) (Hr : 0 <= ratio).

  (** What the builder reads off one section. *)
  Lemma section_facts z : regular_section (prof z) (trf z) pitch ->
    exists c l, section_chain optC nhz ratio prof trf z = Ok c /\ chain_ok c /\ joints c /\ (4 <= length c)%nat /\
      open_members optC nhz ratio prof trf z = Ok l /\ map nc_pair (filter nc_active l) = firstn (length c - 3) c /\
      hd ORIGIN (nb_points c) = place trf z (outline_start (prof z)) /\ hd 0 (nb_weights c) = 1 /\
      nth (nth (length c - 3) (nb_knots c) 0%nat) (nb_points c) ORIGIN = mapp (rotz pitch) (hd ORIGIN (nb_points c)) /\
      nth (nth (length c - 3) (nb_knots c) 0%nat) (nb_weights c) 0 = 1 /\
      joints (firstn (length c - 3) c) /\
      last (nb_points (firstn (length c - 3) c)) ORIGIN = mapp (rotz pitch) (hd ORIGIN (nb_points c)) /\
      last (nb_weights (firstn (length c - 3) c)) 0 = 1.
  Proof.
    intros (CV & EX & CN & RA & EN & OU & CX & CY).
    destruct (C57_profile_joined optC nhz ratio (place trf z) (prof z) Hn Hr CV EX CN) as (lc & EL & OK & JT & FL).
    set (c := surface_members lc) in *.
    assert (SP : exists lo, open_members optC nhz ratio prof trf z = Ok lo /\ lc = lo ++
      [nc_reverse (nc_transform (place trf z) (convert_curve optC 4 (3 / 2) (cp_ro2 (prof z))));
       nc_reverse (nc_transform (place trf z) (convert_curve optC 4 (3 / 2) (cp_ro (prof z))));
       nc_transform (place trf z) (convert_curve optC 4 (3 / 2) (cp_ro0 (prof z)))] ).
    { unfold nurb_profile_closed in EL. unfold open_members.
      destruct (tooth_mirror (convert_list optC nhz ratio true (cp_tooth (prof z)))) as [mi|]; [|discriminate]. cbn [bind] in *.
      injection EL as <-. eexists. split; [reflexivity|]. rewrite <- app_comm_cons, <- app_assoc. reflexivity. }
    destruct SP as (lo & ELO & ->). pose proof CV as (CT & CA & CD & CO & C0 & C2).
    unfold ring_active in RA. apply andb_prop in RA. destruct RA as [RA A0]. apply andb_prop in RA. destruct RA as [A2 AO].
    destruct (C57_convert_ends optC 4 (3 / 2) _ ltac:(lia) ltac:(lra) CO) as (SO & BO & _).
    destruct (C57_convert_ends optC 4 (3 / 2) _ ltac:(lia) ltac:(lra) C0) as (S0 & B0 & _).
    destruct (C57_convert_ends optC 4 (3 / 2) _ ltac:(lia) ltac:(lra) C2) as (S2 & B2 & _).
    cbv zeta in SO, S0, S2, BO, B0, B2.
    set (r2 := nc_reverse (nc_transform (place trf z) (convert_curve optC 4 (3 / 2) (cp_ro2 (prof z))))) in *.
    set (r1 := nc_reverse (nc_transform (place trf z) (convert_curve optC 4 (3 / 2) (cp_ro (prof z))))) in *.
    set (r0 := nc_transform (place trf z) (convert_curve optC 4 (3 / 2) (cp_ro0 (prof z)))) in *.
    assert (EC : c = surface_members lo ++ [nc_pair r2; nc_pair r1; nc_pair r0]).
    { unfold c. rewrite surface_members_app. f_equal. unfold surface_members, r2, r1, r0.
      cbn [filter nc_reverse nc_transform nc_active]. rewrite B2, BO, B0, A2, AO, A0. reflexivity. }
    set (b := surface_members lo) in *.
    assert (LB : (length c - 3 = length b)%nat) by (rewrite EC, app_length; cbn; lia).
    assert (FB : firstn (length c - 3) c = b) by (rewrite LB, EC, firstn_app, Nat.sub_diag, firstn_all; cbn; apply app_nil_r).
    (* the outline has at least one active curve *)
    assert (NB : b <> []).
    { unfold open_members in ELO. destruct (tooth_mirror (convert_list optC nhz ratio true (cp_tooth (prof z)))) as [mi|]; [|discriminate].
      cbn [bind] in ELO. injection ELO as <-. unfold b. rewrite (app_comm_cons _ _ (nc_transform _ _)), surface_members_app. intros Z. apply app_eq_nil in Z. destruct Z as [Z _].
      match type of Z with surface_members (?a :: ?t) = [] => change (a :: t) with ([a] ++ t) in Z end.
      rewrite surface_members_app in Z. apply app_eq_nil in Z. destruct Z as [_ Z].
      unfold surface_members in Z. apply map_eq_nil in Z.
      destruct (active_follow optC nhz ratio (cp_tooth (prof z)) Hn Hr CT) as [FT AT].
      rewrite (filter_all nc_active) in Z by (apply Forall_map; exact AT). apply map_eq_nil in Z. rewrite Z in FT.
      clear - FT EX. induction (cp_tooth (prof z)) as [|i l IH]; [discriminate|]. cbn in *. unfold leg in FT at 1. cbn [fst] in FT.
      destruct (c_act (cv_curve i)); [inversion FT|]. apply IH; assumption. }
    assert (P2 : hd ORIGIN (fst (nc_pair r2)) = place trf z (ends (cp_ro2 (prof z))) /\ hd 0 (snd (nc_pair r2)) = 1).
    { pose proof (spans_reverse _ _ _ (spans_transform (place trf z) _ _ _ S2)) as (_ & _ & Q1 & _ & Q2 & _). split; assumption. }
    destruct P2 as [P2 W2].
    assert (ST : hd ORIGIN (nb_points c) = place trf z (outline_start (prof z)) /\ hd 0 (nb_weights c) = 1).
    { destruct (points_hd c OK) as (-> & -> & _). unfold outline_start. unfold c, surface_members in *.
      set (fl := filter nc_active _) in *. clearbody fl.
      destruct (route (prof z)) as [|s0 rt]; inversion FL as [E1|m s ml sl FM FR E1 E2]; subst fl; cbn [map] in *; [destruct b; discriminate|].
      destruct FM as (_ & _ & Q1 & _ & Q2 & _). cbn [hd fst snd nc_pair]. split; [|exact Q2].
      rewrite Q1. reflexivity. }
    destruct ST as [ST WS].
    assert (TURN : place trf z (ends (cp_ro2 (prof z))) = mapp (rotz pitch) (hd ORIGIN (nb_points c))).
    { rewrite ST, EN. unfold place. apply place_spin; assumption. }
    assert (ME : nth_error c (length c - 3) = Some (nc_pair r2)).
    { rewrite LB, EC, nth_error_app2, Nat.sub_diag by lia. reflexivity. }
    assert (MO : member_ok (nc_pair r2)).
    { destruct OK as [_ F]. rewrite List.Forall_forall in F. apply F. eapply nth_error_In, ME. }
    assert (CP := C40_points c _ _ OK ME 0%nat ltac:(destruct MO; lia)). rewrite Nat.add_0_r, !nth_hd, P2, W2 in CP. destruct CP as [CP CW].
    (* the open outline ends where the ring begins *)
    assert (JB : joints b /\ last (fst (last b ([], []))) ORIGIN = hd ORIGIN (fst (nc_pair r2)) /\ last (snd (last b ([], []))) 0 = hd 0 (snd (nc_pair r2))).
    { rewrite EC in JT. clear - JT NB. induction b as [|m b IH]; [contradiction|]. destruct b as [|m' b].
      - cbn [app joints last] in *. destruct JT as (J1 & J2 & _). repeat split; assumption.
      - change ((m :: m' :: b) ++ [nc_pair r2; nc_pair r1; nc_pair r0]) with (m :: m' :: (b ++ [nc_pair r2; nc_pair r1; nc_pair r0])) in JT.
        destruct JT as (J1 & J2 & JT). assert (NB' : m' :: b <> []) by discriminate.
        destruct (IH JT NB') as (K1 & K2 & K3).
        change (last (m :: m' :: b) ([], [])) with (last (m' :: b) (([], []) : list vec * list R)).
        split; [|split; assumption]. cbn [joints]. auto. }
    destruct JB as (JB & LP & LW).
    exists c, lo. split; [unfold section_chain, closed_members; rewrite EL; reflexivity|].
    split; [exact OK|]. split; [exact JT|].
    split; [rewrite EC, app_length; cbn; destruct b; [contradiction|cbn; lia]|].
    split; [exact ELO|]. rewrite FB. split; [reflexivity|]. split; [exact ST|]. split; [exact WS|].
    split; [rewrite CP; exact TURN|]. split; [exact CW|]. split; [exact JB|].
    unfold nb_points at 1, nb_weights at 1. rewrite !last_last, LP, LW, P2, W2. auto.
  Qed.
End Sect.

(** ** Segments *)
Lemma ascending_fun l : forall a b b', ascending a l b -> ascending a l b' -> b = b'.
Proof. induction l as [|x l IH]; intros a b b' H H'; cbn in *; [congruence|]. destruct H, H'. eapply IH; eassumption. Qed.
Lemma ascending_nth l : forall a b k, ascending a l b -> (k <= length l)%nat -> (nth k (a :: l) 0 <= b)%nat.
Proof.
  induction l as [|x l IH]; intros a b k H K; cbn in H.
  - cbn in K. assert (k = 0%nat) as -> by lia. cbn. lia.
  - destruct H as [H1 H2]. destruct k as [|k]; [cbn; apply ascending_le in H2; lia|]. change (nth (S k) (a :: x :: l) 0%nat) with (nth k (x :: l) 0%nat).
    apply IH; [exact H2|cbn in K; lia].
Qed.
Lemma weights_length c : chain_ok c -> length (nb_weights c) = length (nb_points c) /\ (1 <= length (nb_points c))%nat.
Proof.
  intros [N F]. unfold nb_weights, nb_points. rewrite !app_length. cbn [length]. split; [|lia]. f_equal. clear N.
  induction F as [|m c [L LW] F IH]; [reflexivity|]. cbn [flat_map]. rewrite !app_length, !removelast_length, IH. lia.
Qed.
Lemma knots_length c c' : chain_ok c -> chain_ok c' -> nb_knots c = nb_knots c' -> length (nb_points c) = length (nb_points c').
Proof.
  intros H H' E. destruct (C40_knots c H) as (r & Er & _ & A). destruct (C40_knots c' H') as (r' & Er' & _ & A').
  rewrite Er, Er' in E. injection E as <-. pose proof (ascending_fun _ _ _ _ A A').
  destruct (weights_length c H), (weights_length c' H'). lia.
Qed.
Lemma equal_lengths_const l a : (forall x, In x l -> x = a) -> equal_lengths l = true.
Proof.
  intros H. destruct l as [|x l]; [reflexivity|]. cbn. apply forallb_forall. intros y I. apply Nat.eqb_eq.
  rewrite (H x), (H y); [reflexivity|right; exact I|left; reflexivity].
Qed.
Lemma row_points_coords n (T : arr3) i (l : list vec) : length l = n -> (forall a b, (a < n)%nat -> (b < 3)%nat -> T i a b = coord (nth a l ORIGIN) b) ->
  row_points n (T i) = l.
Proof.
  intros L H. unfold row_points. apply (nth_ext _ _ ORIGIN ORIGIN); rewrite map_length, seq_length; [congruence|].
  intros a A. erewrite (nth_indep _ ORIGIN); [|rewrite map_length, seq_length; exact A].
  rewrite (map_nth (fun k => V (T i k 0%nat) (T i k 1%nat) (T i k 2%nat)) _ 0%nat), seq_nth by exact A. cbn [Nat.add].
  rewrite !H by lia. destruct (nth a l ORIGIN); reflexivity.
Qed.
Lemma entries_list n (w : arr1) (l : list R) : length l = n -> (forall a, (a < n)%nat -> w a = nth a l 0) -> entries n w = l.
Proof.
  intros L H. apply (nth_ext _ _ 0 0); rewrite entries_length; [congruence|]. intros a A. rewrite entries_nth by exact A. apply H, A.
Qed.
Lemma net_column n m P u : (u < n)%nat ->
  column (net_points n m P) (net_weights n m P) u = (map (fun k => net_pt P k u) (seq 0 m), map (fun k => net_w P k u) (seq 0 m)).
Proof.
  intros U. unfold column, net_points, net_weights. rewrite !map_map. f_equal; apply map_ext; intros k.
  - unfold row_points. erewrite nth_indep; [|rewrite map_length, seq_length; exact U].
    rewrite (map_nth (fun j => V (P k j 0%nat) (P k j 1%nat) (P k j 2%nat)) _ 0%nat), seq_nth by exact U. reflexivity.
  - apply entries_nth, U.
Qed.

(** One segment: its net begins with the first and ends with the last section, all rows have the same length, and the column where
    the tooth ends is the first column turned by the pitch angle. *)
Lemma segment_facts optS nv ratio pitch K u N stack : (2 <= nv)%nat -> (2 <= length stack)%nat -> length stack = n_z_tweens nv ratio ->
  (forall c, In c stack -> chain_ok c /\ nb_knots c = K /\ length (nb_points c) = N /\
     nth u (nb_points c) ORIGIN = mapp (rotz pitch) (hd ORIGIN (nb_points c)) /\ nth u (nb_weights c) 0 = hd 0 (nb_weights c)) -> (u < N)%nat ->
  n_z_tweens nv ratio = 2%nat \/ ((nv <= n_z_tweens nv ratio)%nat /\
    converged (stack_target stack) (n_z_tweens nv ratio) N nv (optS (stack_target stack))) ->
  exists pts ws, side_surface optS nv ratio stack = Ok (pts, ws, K) /\ pts <> [] /\
    nth 0 pts [] = nb_points (hd [] stack) /\ nth 0 ws [] = nb_weights (hd [] stack) /\
    nth (length pts - 1) pts [] = nb_points (last stack []) /\ nth (length pts - 1) ws [] = nb_weights (last stack []) /\
    length ws = length pts /\
    List.Forall (fun row => length row = N) pts /\ List.Forall (fun row => length row = N) ws /\
    column pts ws u = spin pitch (column pts ws 0).
Proof.
  intros Hv H2 HL H U CV. unfold side_surface.
  assert (EQ : equal_lengths (map (fun l => length (nb_points l)) stack) = true).
  { apply (equal_lengths_const _ N). intros x I. apply in_map_iff in I. destruct I as (c & <- & I). apply (H c I). }
  assert (HF : nb_knots (hd [] stack) = K /\ length (nb_points (hd [] stack)) = N).
  { assert (I : In (hd [] stack) stack) by (destruct stack; [cbn in H2; lia|left; reflexivity]). destruct (H _ I) as (_ & A & B & _). auto. }
  destruct HF as [HK HN].
  assert (LST : nth (length stack - 1) stack [] = last stack []) by apply nth_last.
  destruct (Nat.eqb_spec (n_z_tweens nv ratio) 2) as [T2|T2].
  - unfold side_surface_two_layers. destruct stack as [|f rest] eqn:ES; [cbn in H2; lia|]. rewrite EQ. rewrite <- ES in *. clear EQ.
    replace f with (hd [] stack) by (rewrite ES; reflexivity). rewrite HK. exists (map nb_points stack), (map nb_weights stack).
    split; [reflexivity|]. split; [rewrite ES; discriminate|].
    split; [rewrite ES; reflexivity|]. split; [rewrite ES; reflexivity|].
    assert (LE : (length stack - 1 < length stack)%nat) by lia. rewrite !map_length.
    split; [rewrite (nth_indep _ [] (nb_points [])) by (rewrite map_length; exact LE); rewrite map_nth, LST; reflexivity|].
    split; [rewrite (nth_indep _ [] (nb_weights [])) by (rewrite map_length; exact LE); rewrite map_nth, LST; reflexivity|].
    split; [reflexivity|].
    split; [apply Forall_map, List.Forall_forall; intros c I; apply (H c I)|].
    split; [apply Forall_map, List.Forall_forall; intros c I; destruct (H c I) as (O & _ & L & _); rewrite (proj1 (weights_length c O)); exact L|].
    unfold column, spin. cbn [fst snd]. rewrite !map_map. f_equal; apply map_ext_in; intros c I; destruct (H c I) as (_ & _ & _ & E1 & E2); rewrite nth_hd; assumption.
  - destruct CV as [CV|[LE CV]]; [contradiction|].
    destruct stack as [|f rest] eqn:ES; [cbn in H2; lia|]. rewrite EQ. rewrite <- ES in *.
    replace f with (hd [] stack) by (rewrite ES; reflexivity). cbv zeta. rewrite HN, HK, HL.
    set (tg := stack_target stack) in *. set (P := surf_points tg (n_z_tweens nv ratio) N nv (optS tg)).
    exists (net_points N nv P), (net_weights N nv P). split; [reflexivity|].
    assert (LP : length (net_points N nv P) = nv) by (unfold net_points; rewrite map_length, seq_length; reflexivity).
    assert (LW : length (net_weights N nv P) = nv) by (unfold net_weights; rewrite map_length, seq_length; reflexivity).
    split; [intros Z; rewrite Z in LP; cbn in LP; lia|].
    assert (ROW : forall k, (k < nv)%nat -> nth k (net_points N nv P) [] = row_points N (P k) /\ nth k (net_weights N nv P) [] = entries N (fun a => P k a 3%nat)).
    { intros k Kv. unfold net_points, net_weights. split.
      - erewrite nth_indep; [|rewrite map_length, seq_length; exact Kv]. rewrite (map_nth (fun i => row_points N (P i)) _ 0%nat), seq_nth by exact Kv. reflexivity.
      - erewrite nth_indep; [|rewrite map_length, seq_length; exact Kv]. rewrite (map_nth (fun i => entries N (fun a => P i a 3%nat)) _ 0%nat), seq_nth by exact Kv. reflexivity. }
    assert (SEC : forall i, (i < length stack)%nat -> row_points N (tg i) = nb_points (nth i stack []) /\ entries N (fun a => tg i a 3%nat) = nb_weights (nth i stack [])).
    { intros i I. assert (IN : In (nth i stack []) stack) by (apply nth_In; exact I). destruct (H _ IN) as (O & _ & L & _). split.
      - apply row_points_coords; [exact L|]. intros a b _ B. unfold tg, stack_target. destruct b as [|[|[|b]]]; try reflexivity. lia.
      - apply entries_list; [rewrite (proj1 (weights_length _ O)); exact L|]. intros a _. reflexivity. }
    assert (P0 : P 0%nat = tg 0%nat) by (apply surf_first; lia).
    assert (P1 : P (nv - 1)%nat = tg (n_z_tweens nv ratio - 1)%nat) by (apply surf_last; lia).
    destruct (ROW 0%nat ltac:(lia)) as [-> ->]. rewrite LP. destruct (ROW (nv - 1)%nat ltac:(lia)) as [-> ->].
    rewrite P0, P1. destruct (SEC 0%nat ltac:(lia)) as [-> ->]. destruct (SEC (n_z_tweens nv ratio - 1)%nat ltac:(lia)) as [-> ->].
    rewrite <- HL, LST, nth_hd. split; [reflexivity|]. split; [reflexivity|]. split; [reflexivity|]. split; [reflexivity|].
    split; [rewrite LW; reflexivity|].
    split; [apply Forall_map, List.Forall_forall; intros k _; unfold row_points; rewrite map_length, seq_length; reflexivity|].
    split; [apply Forall_map, List.Forall_forall; intros k _; apply entries_length|].
    rewrite !net_column by lia. unfold spin. cbn [fst snd]. rewrite map_map.
    assert (SM : forall k, (k < nv)%nat -> net_pt P k u = mapp (rotz pitch) (net_pt P k 0) /\ net_w P k u = net_w P k 0).
    { apply (C115_seam tg (n_z_tweens nv ratio) N nv (optS tg) 0 u pitch); try assumption; try lia. intros i I. rewrite <- HL in I.
      assert (IN : In (nth i stack []) stack) by (apply nth_In; exact I). destruct (H _ IN) as (_ & _ & _ & E1 & E2).
      unfold net_pt, net_w, tg, stack_target. rewrite !nth_hd, E1, E2. split; [|reflexivity].
      change (V (coord (mapp (rotz pitch) (hd ORIGIN (nb_points (nth i stack [])))) 0) (coord (mapp (rotz pitch) (hd ORIGIN (nb_points (nth i stack [])))) 1)
        (coord (mapp (rotz pitch) (hd ORIGIN (nb_points (nth i stack [])))) 2) = mapp (rotz pitch) (V (coord (hd ORIGIN (nb_points (nth i stack []))) 0)
        (coord (hd ORIGIN (nb_points (nth i stack []))) 1) (coord (hd ORIGIN (nb_points (nth i stack []))) 2))). rewrite !coords_vec. reflexivity. }
    f_equal; apply map_ext_in; intros k Ik; apply in_seq in Ik; apply SM; lia.
Qed.

(** ** The whole gear *)
Lemma tweens_ge nv ratio : (2 <= nv)%nat -> 0 <= ratio -> (2 <= n_z_tweens nv ratio)%nat.
Proof.
  intros H R0. unfold n_z_tweens. pose proof (ceilZ_bound ((INR nv - 2) * ratio)) as [C _].
  assert (2 <= INR nv) by (change 2 with (INR 2); apply le_INR; exact H).
  assert (0 <= (INR nv - 2) * ratio) by (apply Rmult_le_pos; lra).
  assert (0 <= ceilZ ((INR nv - 2) * ratio))%Z by (apply le_IZR; lra). lia.
Qed.
Lemma firstn_removelast {A} (d : A) : forall n l, (n < length l)%nat -> firstn n (removelast l) = map (fun i => nth i l d) (seq 0 n).
Proof.
  induction n as [|n IH]; intros l H; [reflexivity|]. destruct l as [|a [|b l]]; cbn in H; try lia.
  change (removelast (a :: b :: l)) with (a :: removelast (b :: l)). cbn [firstn seq map nth]. f_equal.
  rewrite IH by (cbn; lia). rewrite <- seq_shift, map_map. reflexivity.
Qed.
Lemma firstn_seq {A} (d : A) : forall n l, (n <= length l)%nat -> firstn n l = map (fun i => nth i l d) (seq 0 n).
Proof.
  induction n as [|n IH]; intros l H; [reflexivity|]. destruct l as [|a l]; cbn in H; try lia.
  cbn [firstn seq map nth]. f_equal. rewrite IH by lia. rewrite <- seq_shift, map_map. reflexivity.
Qed.
Lemma patches_shape pts ws knots :
  length (get_patches pts ws knots) = (length knots - 1)%nat /\
  List.Forall (fun f : face => length (fst f) = length pts /\ length (snd f) = length ws) (get_patches pts ws knots).
Proof.
  induction knots as [|a [|b k] [IL IF]]; [split; [reflexivity|constructor]|split; [reflexivity|constructor]|].
  change (get_patches pts ws (a :: b :: k)) with ((map (fun row => slice row a (b + 1)) pts, map (fun row => slice row a (b + 1)) ws) :: get_patches pts ws (b :: k)).
  split; [cbn [length] in *; lia|]. constructor; [cbn [fst snd]; rewrite !map_length; split; reflexivity|exact IF].
Qed.
Lemma enforce_id c : chain_ok c -> joints c -> last (nb_weights c) 0 = hd 0 (nb_weights c) ->
  last (nb_points c) ORIGIN = hd ORIGIN (nb_points c) \/ DELTA / 100 <= norm (vsub (hd ORIGIN (nb_points c)) (last (nb_points c) ORIGIN)) ->
  nb_enforce (nb_is_closed (join_all c)) c = c.
Proof.
  intros OK J W H. assert (E : join_all c = c).
  { destruct OK as [N F]. destruct c as [|m c]; [contradiction|]. inversion F; subst. apply join_id; assumption. }
  unfold nb_enforce. rewrite E. unfold nb_is_closed. destruct (Rlt_dec _ _) as [L|L]; [|reflexivity].
  destruct H as [H|H]; [|lra]. destruct (points_hd c OK) as (PH & WH & _).
  rewrite PH in H. rewrite WH in W. unfold nb_points in H. unfold nb_weights in W. rewrite last_last in H, W.
  destruct OK as [N F]. destruct c as [|m c]; [contradiction|]. cbn [hd] in H, W. cbn [close_up].
  rewrite (NurbsProps.last_default m c _ m) in H, W.
  inversion F as [|? ? M FC]; subst. destruct (member_nonempty m M) as [N1 N2].
  set (e := last (m :: c) m) in *. rewrite H, W, vmid_same. replace ((hd 0 (snd m) + hd 0 (snd m)) / 2) with (hd 0 (snd m)) by field.
  assert (ME : member_ok e).
  { rewrite List.Forall_forall in F. apply F. unfold e. clear. destruct c as [|d c]; [left; reflexivity|].
    right. change (In (last (d :: c) m) (d :: c)). destruct (exists_last (l := d :: c) ltac:(discriminate)) as (l & x & ->). rewrite last_last. apply in_or_app. right. left. reflexivity. }
  destruct (member_nonempty e ME) as [E1 E2].
  destruct c as [|d c].
  - unfold e in *. cbn [last] in *. 
    replace (set_last (fst m) (hd ORIGIN (fst m))) with (fst m) by (rewrite <- H; symmetry; apply set_last_id; assumption).
    replace (set_last (snd m) (hd 0 (snd m))) with (snd m) by (rewrite <- W; symmetry; apply set_last_id; assumption).
    rewrite !set_first_id by assumption. destruct m; reflexivity.
  - rewrite !set_first_id by assumption.
    replace (set_last (fst e) (hd ORIGIN (fst m))) with (fst e) by (rewrite <- H; symmetry; apply set_last_id; assumption).
    replace (set_last (snd e) (hd 0 (snd m))) with (snd e) by (rewrite <- W; symmetry; apply set_last_id; assumption).
    assert (EE : e = last (d :: c) m) by reflexivity. rewrite EE. destruct m as [mp mw]. cbn [fst snd].
    f_equal. rewrite <- surjective_pairing. symmetry. apply (app_removelast_last (l := d :: c)). discriminate.
Qed.

Lemma face_edges_perm l : Permutation (flat_map face_edges l)
  (map (fun f => Bez (left_edge f)) l ++ map (fun f => Bez (right_edge f)) l ++ map (fun f => Bez (bottom_edge f)) l ++ map (fun f => Bez (top_edge f)) l).
Proof.
  transitivity (flat_map (fun f => [Bez (left_edge f)] ++ ([Bez (right_edge f)] ++ ([Bez (bottom_edge f)] ++ [Bez (top_edge f)]))) l); [reflexivity|].
  assert (M : forall g : face -> edge, flat_map (fun f => [g f]) l = map g l) by (intros g; induction l; [reflexivity|cbn; f_equal; assumption]).
  rewrite flat_map_app_perm, M. apply Permutation_app_head. rewrite flat_map_app_perm, M. apply Permutation_app_head.
  rewrite flat_map_app_perm, !M. reflexivity.
Qed.
Lemma skip3 {A} (a b c d : list A) x y : Permutation (a ++ d) (b ++ c) -> Permutation x y ->
  Permutation ((x ++ y ++ a ++ b) ++ c ++ d) ((x ++ b ++ c) ++ (x ++ b ++ c)).
Proof.
  intros H1 H2. rewrite <- H2. rewrite <- !app_assoc. apply Permutation_app_head.
  transitivity (x ++ (a ++ d) ++ (b ++ c)).
  - apply Permutation_app_head. rewrite <- app_assoc. apply Permutation_app_head. rewrite app_assoc. apply Permutation_app_comm.
  - rewrite H1. rewrite (app_assoc b c (x ++ b ++ c)). apply Permutation_app_swap_app.
Qed.

Section Whole.
  Variables (optC : curve -> arr2 -> arr1) (optS : arr3 -> arr1) (nhz nv : nat) (ratio : R).
  Variables (prof : R -> cv_profile) (trf : R -> gtransform).
  Variables (n_act : Z) (num pitch : R) (inside : bool) (h_o : R) (zs : list R) (K : list nat).
  Notation tw := (n_z_tweens nv ratio).
  Notation np := (length K - 4)%nat.
  Hypotheses (Hn : (2 <= nhz)%nat) (Hr : 0 <= ratio) (Hv : (2 <= nv)%nat) (HZ : (2 <= length zs)%nat).
  Hypotheses (HA : (0 < n_act)%Z) (HP : pitch = 2 * PI / IZR n_act).
  Hypothesis HS : forall z, In z (concat (z_stacks zs tw)) -> regular_section (prof z) (trf z) pitch /\
    (forall c, section_chain optC nhz ratio prof trf z = Ok c -> nb_knots c = K).
  (** The chain of a section. *)
  Definition chain_at (z : R) : nurbs := match section_chain optC nhz ratio prof trf z with Ok c => c | Err _ => [] end.
  Hypothesis HC : tw = 2%nat \/ ((nv <= tw)%nat /\ forall hs, In hs (z_stacks zs tw) ->
    let tg := stack_target (map chain_at hs) in converged tg tw (S (last K 0%nat)) nv (optS tg)).

  Lemma HT : (2 <= tw)%nat.
  Proof. apply tweens_ge; assumption. Qed.

  (** A section of the gear. *)
  Definition good (c : nurbs) : Prop := chain_ok c /\ joints c /\ nb_knots c = K /\ length (nb_points c) = S (last K 0%nat) /\
    (5 <= length K)%nat /\ length c = (length K - 1)%nat /\
    nth (nth np K 0%nat) (nb_points c) ORIGIN = mapp (rotz pitch) (hd ORIGIN (nb_points c)) /\
    nth (nth np K 0%nat) (nb_weights c) 0 = hd 0 (nb_weights c) /\
    (exists r, K = 0%nat :: r /\ ascending 0 r (last K 0%nat)).
  Lemma ascending_last r : forall a b, ascending a r b -> b = last (a :: r) 0%nat.
  Proof.
    induction r as [|x r IH]; intros a b H; cbn in H; [cbn; congruence|]. destruct H as [_ H]. rewrite (IH _ _ H). reflexivity.
  Qed.
  Lemma section_good z : In z (concat (z_stacks zs tw)) ->
    section_chain optC nhz ratio prof trf z = Ok (chain_at z) /\ good (chain_at z).
  Proof.
    intros I. destruct (HS z I) as [RS KN].
    destruct (section_facts optC nhz ratio prof trf pitch Hn Hr z RS) as (c & l & E & OK & J & L4 & _ & _ & _ & W1 & P & W & _).
    unfold chain_at. rewrite E. split; [reflexivity|]. specialize (KN c E).
    destruct (C40_knots c OK) as (r & ER & LR & AR). destruct (weights_length c OK) as [LW L1].
    assert (LK : (length K = S (length c))) by (rewrite <- KN, ER; cbn; lia).
    assert (LA : last K 0%nat = (length (nb_points c) - 1)%nat) by (rewrite <- KN, ER; symmetry; apply ascending_last, AR).
    unfold good. replace np with (length c - 3)%nat by lia. rewrite KN in P, W.
    split; [exact OK|]. split; [exact J|]. split; [exact KN|]. split; [rewrite LA; lia|]. split; [lia|]. split; [lia|]. split; [exact P|].
    split; [rewrite W, W1; reflexivity|]. exists r. split; [rewrite <- KN; exact ER|]. rewrite LA. exact AR.
  Qed.

  Definition stack k : list R := linspace (nth k zs 0) (nth (S k) zs 0) tw.
  Definition seg_data k := match bind (res_map (section_chain optC nhz ratio prof trf) (stack k)) (side_surface optS nv ratio) with Ok d => d | Err _ => ([], [], []) end.
  Lemma stack_in k z : (S k < length zs)%nat -> In z (stack k) -> In z (concat (z_stacks zs tw)).
  Proof.
    intros Hk I. apply in_concat. exists (stack k). split; [|exact I]. unfold z_stacks. apply in_map_iff. exists k. split; [reflexivity|]. apply in_seq. lia.
  Qed.
  Lemma segment k : (S k < length zs)%nat -> exists pts ws,
    bind (res_map (section_chain optC nhz ratio prof trf) (stack k)) (side_surface optS nv ratio) = Ok (pts, ws, K) /\
    map left_edge (kept (get_patches pts ws K)) = map (fun i => column pts ws (nth i K 0%nat)) (seq 0 np) /\
    map right_edge (kept (get_patches pts ws K)) = map (fun i => column pts ws (nth (S i) K 0%nat)) (seq 0 np) /\
    map bottom_edge (kept (get_patches pts ws K)) = firstn np (chain_at (nth k zs 0)) /\
    map top_edge (kept (get_patches pts ws K)) = firstn np (chain_at (nth (S k) zs 0)) /\
    column pts ws (nth np K 0%nat) = spin pitch (column pts ws 0).
  Proof.
    intros Hk. pose proof HT as T2.
    assert (G : forall z, In z (stack k) -> section_chain optC nhz ratio prof trf z = Ok (chain_at z) /\ good (chain_at z)).
    { intros z I. apply section_good. eapply stack_in; eassumption. }
    rewrite (res_map_ok _ chain_at) by (intros z I; apply (G z I)). cbn [bind].
    assert (LS : length (stack k) = tw) by apply linspace_length.
    assert (H0 : hd 0 (stack k) = nth k zs 0) by (apply linspace_hd; lia).
    assert (H1 : last (stack k) 0 = nth (S k) zs 0) by (apply linspace_last; lia).
    assert (I0 : In (nth k zs 0) (stack k)) by (rewrite <- H0; destruct (stack k); [cbn in LS; lia|left; reflexivity]).
    assert (I1 : In (nth (S k) zs 0) (stack k)).
    { rewrite <- H1. rewrite <- nth_last. apply nth_In. lia. }
    assert (GK : good (chain_at (nth k zs 0))) by (apply G, I0).
    assert (GS : good (chain_at (nth (S k) zs 0))) by (apply G, I1).
    pose proof GK as (OK0 & J0 & K0 & N0 & L5 & LC & _ & _ & (r & EK & AK)).
    pose proof GS as (OK1 & J1 & K1 & N1 & _).
    destruct (segment_facts optS nv ratio pitch K (nth np K 0%nat) (S (last K 0%nat)) (map chain_at (stack k))) as
      (pts & ws & E & NE & R0 & W0 & R1 & W1 & LW & FP & FW & CO); try assumption.
    - rewrite map_length, LS. lia.
    - rewrite map_length. exact LS.
    - intros c I. apply in_map_iff in I. destruct I as (z & <- & I). destruct (G z I) as (_ & OK & _ & KN & NN & _ & _ & P & W & _). auto.
    - apply Nat.lt_succ_r. rewrite EK at 2. apply ascending_nth; [exact AK|]. rewrite EK. cbn [length]. lia.
    - destruct HC as [C|[C1 C2]]; [left; exact C|right]. split; [exact C1|]. apply C2. unfold z_stacks. apply in_map_iff. exists k. split; [reflexivity|]. apply in_seq. lia.
    - exists pts, ws. split; [exact E|].
      destruct (patches_shape pts ws K) as [LP SH].
      assert (PC := patch_columns pts ws r 0 (last K 0%nat) AK).
      rewrite <- EK in PC. destruct PC as [PL PR].
      { eapply List.Forall_impl; [|exact FP]. cbn. intros; lia. }
      { eapply List.Forall_impl; [|exact FW]. cbn. intros; lia. }
      assert (HH : hd [] (map chain_at (stack k)) = chain_at (nth k zs 0)).
      { rewrite <- H0. destruct (stack k); [cbn in LS; lia|reflexivity]. }
      assert (HL : last (map chain_at (stack k)) [] = chain_at (nth (S k) zs 0)).
      { rewrite <- H1, <- !nth_last, map_length. rewrite (nth_indep _ [] (chain_at 0)) by (rewrite map_length; lia). apply map_nth. }
      rewrite HH in R0, W0. rewrite HL in R1, W1.
      assert (KE : kept (get_patches pts ws K) = firstn np (get_patches pts ws K)) by (unfold kept; f_equal; unfold face; rewrite LP; lia).
      rewrite KE, <- !firstn_map.
      split; [etransitivity; [exact (f_equal (firstn np) PL)|]; rewrite firstn_map, (firstn_removelast 0%nat) by lia; rewrite map_map; reflexivity|].
      split.
      { etransitivity; [exact (f_equal (firstn np) PR)|]. rewrite firstn_map, (firstn_seq 0%nat) by (rewrite EK; cbn [length]; lia). rewrite map_map. apply map_ext. intros i. rewrite EK. reflexivity. }
      split.
      { f_equal. rewrite <- (C40_read_split _ OK0 J0) at 1. rewrite K0, <- R0, <- W0, <- C59_rows. apply map_ext. intros f. unfold bottom_edge, patch_row. rewrite !nth_hd. reflexivity. }
      split; [|exact CO].
      f_equal. rewrite <- (C40_read_split _ OK1 J1) at 1. rewrite K1, <- R1, <- W1, <- C59_rows. apply map_ext_in. intros f I.
      rewrite List.Forall_forall in SH. destruct (SH f I) as [S1 S2]. unfold top_edge, patch_row. rewrite <- S1 at 1. rewrite nth_last. f_equal.
      rewrite <- LW, <- S2, nth_last. reflexivity.
  Qed.
  Definition bundle k : list edge := flat_map (fun j => map (fun e => Bez (spin (INR j * pitch) e)) (firstn np (chain_at (nth k zs 0)))) (seq 0 (Z.to_nat n_act)).

  Lemma cover_bundle k : (k < length zs)%nat -> In (nth k zs 0) (concat (z_stacks zs tw)) ->
    let a := place trf (nth k zs 0) (outline_start (prof (nth k zs 0))) in
    a = mapp (rotz pitch) a \/ DELTA / 100 <= norm (vsub a (mapp (rotz pitch) a)) ->
    exists cv, generate_cover optC nhz ratio prof trf n_act num pitch inside h_o (nth k zs 0) = Ok cv /\ map Bez (cv_wire cv) = bundle k /\
      cv_circle cv = if inside then Some (outside_radius num h_o, vz (g_center (trf (nth k zs 0)))) else None.
  Proof.
    intros Hk I a HD. set (z := nth k zs 0) in *. destruct (section_good z I) as [EC G]. destruct (HS z I) as [RS KN].
    destruct (section_facts optC nhz ratio prof trf pitch Hn Hr z RS) as (c & l & E & OK & J & L4 & OM & AM & PH & WH & P & W & JF & LP & LWF).
    assert (c = chain_at z) as -> by congruence. destruct G as (_ & _ & _ & _ & L5 & LC & _).
    assert (EN : (length (chain_at z) - 3 = np)%nat) by lia. rewrite EN in *.
    set (e := firstn np (chain_at z)) in *.
    assert (HE : hd ([], []) e = hd ([], []) (chain_at z) /\ e <> []).
    { unfold e. replace np with (S (length K - 5)) by lia. destruct (chain_at z); [cbn in L4; lia|]. split; [reflexivity|discriminate]. }
    destruct HE as [HE NE].
    assert (OKE : chain_ok e).
    { split; [exact NE|]. destruct OK as [_ F]. rewrite List.Forall_forall in *. intros m M. apply F. unfold e in M.
      rewrite <- (firstn_skipn np (chain_at z)). apply in_or_app. left. exact M. }
    destruct (points_hd _ OK) as (Q1 & Q2 & _). destruct (points_hd _ OKE) as (Q1' & Q2' & _). rewrite HE, <- Q1 in Q1'. rewrite HE, <- Q2 in Q2'.
    unfold generate_cover. rewrite OM. cbn [bind]. cbv zeta. rewrite AM. rewrite enforce_id; try assumption.
    - eexists. split; [reflexivity|]. cbn [cv_wire cv_circle]. split; [|reflexivity]. rewrite map_flat_map. unfold bundle. fold z. fold e.
      apply flat_map_ext_in. intros j _. rewrite map_map. apply map_ext. intros b. rewrite (proj2 (turn_spin pitch j b)). reflexivity.
    - rewrite LWF, Q2', WH. reflexivity.
    - rewrite LP, Q1', PH. destruct HD as [HD|HD]; [left; symmetry; exact HD|right; exact HD].
  Qed.

  Lemma full_turn e : spin (INR (Z.to_nat n_act) * pitch) e = spin (INR 0 * pitch) e.
  Proof.
    assert (0 < IZR n_act) by (apply (IZR_lt 0); exact HA).
    rewrite INR_IZR_INZ, Z2Nat.id by lia. rewrite HP. replace (IZR n_act * (2 * PI / IZR n_act)) with (2 * PI) by (field; lra).
    cbn [INR]. rewrite Rmult_0_l. unfold spin, rotz. rewrite sin_2PI, cos_2PI, sin_0, cos_0. reflexivity.
  Qed.

  Lemma ends_in : In (nth 0 zs 0) (concat (z_stacks zs tw)) /\ In (nth (length zs - 1) zs 0) (concat (z_stacks zs tw)).
  Proof.
    pose proof HT as T2. set (n := (length zs - 1)%nat).
    assert (IN0 : In (nth 0 zs 0) (concat (z_stacks zs tw))).
    { apply (stack_in 0); [lia|]. unfold stack. rewrite <- (linspace_hd (nth 0 zs 0) (nth 1 zs 0) tw T2) at 1.
      pose proof (linspace_length (nth 0 zs 0) (nth 1 zs 0) tw). destruct (linspace _ _ _); [cbn in *; lia|left; reflexivity]. }
    assert (IN1 : In (nth n zs 0) (concat (z_stacks zs tw))).
    { apply (stack_in (n - 1)); [unfold n; lia|]. unfold stack. replace (S (n - 1)) with n by (unfold n; lia).
      rewrite <- (linspace_last (nth (n - 1) zs 0) (nth n zs 0) tw T2) at 1. rewrite <- nth_last. apply nth_In. rewrite linspace_length. lia. }
    split; assumption.
  Qed.

  (** The side faces: the left edges are the right edges again, the lower and the upper edges are the outlines of the lower and of
      the upper sections of the segments. *)
  Lemma sides_whole : exists data, side_surf_data optC optS nhz nv ratio prof trf zs = Ok data /\
    let sides := side_face_list n_act pitch zs data in
    Permutation (map (fun f => Bez (left_edge f)) sides) (map (fun f => Bez (right_edge f)) sides) /\
    Permutation (map (fun f => Bez (bottom_edge f)) sides) (flat_map bundle (seq 0 (length zs - 1))) /\
    Permutation (map (fun f => Bez (top_edge f)) sides) (flat_map (fun k => bundle (S k)) (seq 0 (length zs - 1))) /\
    length sides = (Z.to_nat n_act * ((length zs - 1) * np))%nat.
  Proof.
    pose proof HT as T2. destruct ends_in as [IN0 _]. set (n := (length zs - 1)%nat) in *. set (N := Z.to_nat n_act).
    assert (SD : side_surf_data optC optS nhz nv ratio prof trf zs = Ok (map seg_data (seq 0 n))).
    { unfold side_surf_data, z_stacks. fold n.
      rewrite (res_map_ok _ (fun hs => match bind (res_map (section_chain optC nhz ratio prof trf) hs) (side_surface optS nv ratio) with Ok d => d | Err _ => ([], [], []) end)).
      - rewrite map_map. reflexivity.
      - intros hs I. apply in_map_iff in I. destruct I as (k & <- & I). apply in_seq in I.
        destruct (segment k ltac:(unfold n in I; lia)) as (pts & ws & E & _). unfold stack in E. rewrite E. reflexivity. }
    exists (map seg_data (seq 0 n)). split; [exact SD|]. cbv zeta.
    set (sides := side_face_list n_act pitch zs (map seg_data (seq 0 n))).
    assert (SEG : forall k, (k < n)%nat -> exists pts ws, nth k (map seg_data (seq 0 n)) ([], [], []) = (pts, ws, K) /\
      map left_edge (kept (get_patches pts ws K)) = map (fun i => column pts ws (nth i K 0%nat)) (seq 0 np) /\
      map right_edge (kept (get_patches pts ws K)) = map (fun i => column pts ws (nth (S i) K 0%nat)) (seq 0 np) /\
      map bottom_edge (kept (get_patches pts ws K)) = firstn np (chain_at (nth k zs 0)) /\
      map top_edge (kept (get_patches pts ws K)) = firstn np (chain_at (nth (S k) zs 0)) /\
      column pts ws (nth np K 0%nat) = spin pitch (column pts ws 0)).
    { intros k Hk. destruct (segment k ltac:(unfold n in Hk; lia)) as (pts & ws & E & REST). exists pts, ws. split; [|exact REST].
      erewrite nth_indep; [|rewrite map_length, seq_length; exact Hk]. rewrite (map_nth seg_data _ 0%nat), seq_nth by exact Hk. cbn [Nat.add].
      unfold seg_data. rewrite E. reflexivity. }
    set (cells j k := let '(pts, ws, knots) := nth k (map seg_data (seq 0 n)) ([], [], []) in
      map (turn_face (pitch * INR j * 180 / PI)) (kept (get_patches pts ws knots))).
    assert (ES : sides = flat_map (fun j => flat_map (cells j) (seq 0 n)) (seq 0 N)) by reflexivity.
    set (col k i := match nth k (map seg_data (seq 0 n)) ([], [], []) with (pts, ws, _) => column pts ws (nth i K 0%nat) end).
    assert (CL : forall j k, (k < n)%nat -> map (fun f => Bez (left_edge f)) (cells j k) = map (fun i => Bez (spin (INR j * pitch) (col k i))) (seq 0 np)).
    { intros j k Hk. destruct (SEG k Hk) as (pts & ws & E & EL & _). unfold cells, col. rewrite E, map_map.
      rewrite (map_ext _ (fun f => Bez (spin (INR j * pitch) (left_edge f)))) by (intros f; f_equal; apply turned_edges).
      rewrite <- (map_map left_edge (fun e => Bez (spin (INR j * pitch) e))), EL, map_map. reflexivity. }
    assert (CR : forall j k, (k < n)%nat -> map (fun f => Bez (right_edge f)) (cells j k) = map (fun i => Bez (spin (INR j * pitch) (col k (S i)))) (seq 0 np)).
    { intros j k Hk. destruct (SEG k Hk) as (pts & ws & E & _ & EL & _). unfold cells, col. rewrite E, map_map.
      rewrite (map_ext _ (fun f => Bez (spin (INR j * pitch) (right_edge f)))) by (intros f; f_equal; apply turned_edges).
      rewrite <- (map_map right_edge (fun e => Bez (spin (INR j * pitch) e))), EL, map_map. reflexivity. }
    assert (CB : forall j k, (k < n)%nat -> map (fun f => Bez (bottom_edge f)) (cells j k) = map (fun e => Bez (spin (INR j * pitch) e)) (firstn np (chain_at (nth k zs 0)))).
    { intros j k Hk. destruct (SEG k Hk) as (pts & ws & E & _ & _ & EL & _). unfold cells. rewrite E, map_map.
      rewrite (map_ext _ (fun f => Bez (spin (INR j * pitch) (bottom_edge f)))) by (intros f; f_equal; apply turned_edges).
      rewrite <- (map_map bottom_edge (fun e => Bez (spin (INR j * pitch) e))), EL. reflexivity. }
    assert (CT : forall j k, (k < n)%nat -> map (fun f => Bez (top_edge f)) (cells j k) = map (fun e => Bez (spin (INR j * pitch) e)) (firstn np (chain_at (nth (S k) zs 0)))).
    { intros j k Hk. destruct (SEG k Hk) as (pts & ws & E & _ & _ & _ & EL & _). unfold cells. rewrite E, map_map.
      rewrite (map_ext _ (fun f => Bez (spin (INR j * pitch) (top_edge f)))) by (intros f; f_equal; apply turned_edges).
      rewrite <- (map_map top_edge (fun e => Bez (spin (INR j * pitch) e))), EL. reflexivity. }
    assert (DIST : forall (f : face -> edge) (g : nat -> nat -> list edge), (forall j k, (k < n)%nat -> map f (cells j k) = g j k) ->
      Permutation (map f sides) (flat_map (fun k => flat_map (fun j => g j k) (seq 0 N)) (seq 0 n))).
    { intros f g H. rewrite ES, map_flat_map. rewrite <- (flat_map_swap g). apply flat_map_perm. intros j _.
      rewrite map_flat_map. rewrite (flat_map_ext_in _ (g j)); [reflexivity|]. intros k I. apply in_seq in I. apply H. lia. }
    assert (LR : Permutation (map (fun f => Bez (left_edge f)) sides) (map (fun f => Bez (right_edge f)) sides)).
    { rewrite (DIST _ _ CL), (DIST _ _ CR). apply flat_map_perm. intros k I. apply in_seq in I.
      apply (round (fun j i => Bez (spin (INR j * pitch) (col k i)))).
      - intros j _. f_equal. destruct (SEG k ltac:(lia)) as (pts & ws & E & _ & _ & _ & _ & CO). unfold col. rewrite E, CO, spin_spin.
        assert (K0 : nth 0 K 0%nat = 0%nat).
        { destruct (section_good _ IN0) as (_ & _ & _ & _ & _ & _ & _ & _ & _ & (r & EK & _)). rewrite EK. reflexivity. }
        rewrite K0. f_equal. rewrite S_INR. ring.
      - f_equal. apply full_turn. }
    split; [exact LR|]. split; [apply (DIST _ _ CB)|]. split; [apply (DIST _ _ CT)|]. rewrite ES.
    assert (LC : forall j k, (k < n)%nat -> length (cells j k) = np).
    { intros j k Hk. rewrite <- (map_length (fun f => Bez (left_edge f))), CL by exact Hk. rewrite map_length, seq_length. reflexivity. }
    assert (FL : forall {A B} (f : A -> list B) l m, (forall a, In a l -> length (f a) = m) -> length (flat_map f l) = (length l * m)%nat).
    { intros A B f l m. induction l as [|a l IH]; intros H; [reflexivity|]. cbn [flat_map length]. rewrite app_length, H, IH by (try (left; reflexivity); intros b I; apply H; right; exact I). reflexivity. }
    rewrite (FL _ _ _ _ (n * np)%nat), seq_length; [reflexivity|]. intros j _.
    rewrite (FL _ _ _ _ np), seq_length; [reflexivity|]. intros k I. apply in_seq in I. apply LC. lia.
  Qed.

  Hypothesis HD : forall z, z = hd 0 zs \/ z = last zs 0 ->
    let a := place trf z (outline_start (prof z)) in a = mapp (rotz pitch) a \/ DELTA / 100 <= norm (vsub a (mapp (rotz pitch) a)).
  Hypothesis HI : inside = true -> forall z, z = hd 0 zs \/ z = last zs 0 -> vz (g_center (trf z)) = z.

  Lemma whole : exists c, build_cylinder optC optS nhz nv ratio prof trf n_act num pitch inside h_o zs = Ok c /\
    paired (all_edges c) /\ length (cy_sides c) = (Z.to_nat n_act * ((length zs - 1) * np))%nat.
  Proof.
    pose proof HT as T2. unfold build_cylinder. cbv zeta.
    set (n := (length zs - 1)%nat).
    destruct sides_whole as (data & SD & LR & BB & TT & LEN). destruct ends_in as [IN0 IN1]. fold n in IN1, BB, TT, LEN.
    assert (BT : Permutation (map (fun f => Bez (bottom_edge f)) (side_face_list n_act pitch zs data) ++ bundle n)
      (map (fun f => Bez (top_edge f)) (side_face_list n_act pitch zs data) ++ bundle 0)) by (rewrite BB, TT; apply (climb bundle)).
    assert (H0 : hd 0 (hd [] (z_stacks zs tw)) = nth 0 zs 0).
    { unfold z_stacks. fold n. destruct n as [|n'] eqn:En; [unfold n in En; lia|]. cbn [seq map hd]. apply linspace_hd. lia. }
    assert (H1 : last (last (z_stacks zs tw) []) 0 = nth n zs 0).
    { unfold z_stacks. fold n. destruct n as [|n'] eqn:En; [unfold n in En; lia|]. rewrite seq_S, map_app. cbn [map]. rewrite last_last. apply linspace_last. lia. }
    assert (E0 : nth 0 zs 0 = hd 0 zs) by apply nth_hd. assert (E1 : nth n zs 0 = last zs 0) by apply nth_last.
    destruct (cover_bundle 0 ltac:(lia) IN0) as (c0 & C0 & B0 & R0); [apply HD; left; exact E0|].
    destruct (cover_bundle n ltac:(unfold n; lia) IN1) as (c1 & C1 & B1 & R1); [apply HD; right; exact E1|].
    rewrite SD, H0, H1, C0, C1. cbn [bind]. eexists. split; [reflexivity|].
    set (sides := side_face_list n_act pitch zs data) in *.
    split.
    - unfold all_edges, cover_edges. cbn [cy_sides cy_bottom cy_top cy_ring]. fold sides. rewrite B0, B1, R0, R1.
      assert (PE : Permutation (flat_map face_edges sides ++ bundle 0 ++ bundle n)
        ((map (fun f => Bez (left_edge f)) sides ++ map (fun f => Bez (top_edge f)) sides ++ bundle 0) ++
         (map (fun f => Bez (left_edge f)) sides ++ map (fun f => Bez (top_edge f)) sides ++ bundle 0))).
      { rewrite face_edges_perm. apply skip3; [exact BT|exact LR]. }
      set (h := map (fun f => Bez (left_edge f)) sides ++ map (fun f => Bez (top_edge f)) sides ++ bundle 0) in *.
      destruct inside.
      + rewrite E0, E1. rewrite (HI eq_refl (hd 0 zs)) by (left; reflexivity). rewrite (HI eq_refl (last zs 0)) by (right; reflexivity).
        cbn [ring_edges]. exists (h ++ [Circ (outside_radius num h_o) (hd 0 zs); Circ (outside_radius num h_o) (last zs 0)]).
        set (p := Circ (outside_radius num h_o) (hd 0 zs)). set (q := Circ (outside_radius num h_o) (last zs 0)).
        transitivity ((flat_map face_edges sides ++ bundle 0 ++ bundle n) ++ [p; q] ++ [p; q]).
        * rewrite <- !app_assoc. do 2 apply Permutation_app_head. cbn [app].
          rewrite Permutation_middle. apply Permutation_app_head. constructor. cbn. reflexivity.
        * rewrite PE. rewrite <- !app_assoc. apply Permutation_app_head. change (Permutation (h ++ [p; q] ++ [p; q]) ([p; q] ++ h ++ [p; q])). apply Permutation_app_swap_app.
      + cbn [ring_edges]. rewrite !app_nil_r. exists h. exact PE.
    - exact LEN.
  Qed.
End Whole.

(** The gear is built, and every edge of its faces is an edge of exactly one other face: of the next patch, of the next segment, of
    the next tooth, of a cover or of the outside ring. *)
Theorem C115_closed optC optS nhz nv ratio prof trf n_act num pitch inside h_o zs K :
  (2 <= nhz)%nat -> 0 <= ratio -> (2 <= nv)%nat -> (2 <= length zs)%nat -> (0 < n_act)%Z -> pitch = 2 * PI / IZR n_act ->
  (forall z, In z (concat (z_stacks zs (n_z_tweens nv ratio))) -> regular_section (prof z) (trf z) pitch /\
     (forall c, section_chain optC nhz ratio prof trf z = Ok c -> nb_knots c = K)) ->
  n_z_tweens nv ratio = 2%nat \/ ((nv <= n_z_tweens nv ratio)%nat /\ forall hs, In hs (z_stacks zs (n_z_tweens nv ratio)) ->
     let tg := stack_target (map (chain_at optC nhz ratio prof trf) hs) in
     converged tg (n_z_tweens nv ratio) (S (last K 0%nat)) nv (optS tg)) ->
  (forall z, z = hd 0 zs \/ z = last zs 0 -> let a := place trf z (outline_start (prof z)) in
     a = mapp (rotz pitch) a \/ DELTA / 100 <= norm (vsub a (mapp (rotz pitch) a))) ->
  (inside = true -> forall z, z = hd 0 zs \/ z = last zs 0 -> vz (g_center (trf z)) = z) ->
  exists c, build_cylinder optC optS nhz nv ratio prof trf n_act num pitch inside h_o zs = Ok c /\
    paired (all_edges c) /\ length (cy_sides c) = (Z.to_nat n_act * ((length zs - 1) * (length K - 4)))%nat.
Proof. intros. apply whole; assumption. Qed.

(** The four boundary curves of a patch are the curves of the edges. *)
Theorem C115_edges (f : face) n m : grid (fst f) n m -> grid (snd f) n m ->
  (forall w, In w (snd f) -> hd 0 w <> 0 /\ last w 0 <> 0) ->
  (forall u, nurbezier_surface u 0 (fst f) (snd f) = nurbezier u (fst (left_edge f)) (snd (left_edge f)) /\
             nurbezier_surface u 1 (fst f) (snd f) = nurbezier u (fst (right_edge f)) (snd (right_edge f))) /\
  (forall v, bezier v (snd (bottom_edge f)) <> 0 -> nurbezier_surface 0 v (fst f) (snd f) = nurbezier v (fst (bottom_edge f)) (snd (bottom_edge f))) /\
  (forall v, bezier v (snd (top_edge f)) <> 0 -> nurbezier_surface 1 v (fst f) (snd f) = nurbezier v (fst (top_edge f)) (snd (top_edge f))).
Proof.
  destruct f as [pts ws]. unfold left_edge, right_edge, bottom_edge, top_edge, grid. cbn [fst snd]. intros [P1 P2] [W1 W2] NZ.
  assert (Q : forall t (g : list vec -> vec) (h : list R -> R), (forall p w, length p = S m -> length w = S m -> hd 0 w <> 0 -> last w 0 <> 0 -> nurbezier t p w = g p /\ bezier t w = h w) ->
    map (fun pw => nurbezier t (fst pw) (snd pw)) (combine pts ws) = map g pts /\ map (fun w => bezier t w) ws = map h ws).
  { intros t g h H. assert (L : length pts = length ws) by congruence. clear P1 W1. revert ws L W2 NZ.
    induction pts as [|p pts IH]; intros [|w ws] L W2 NZ; try discriminate; [split; reflexivity|]. cbn [combine map fst snd].
    destruct (NZ w (or_introl eq_refl)) as [Z0 Z1].
    destruct (H p w (P2 p (or_introl eq_refl)) (W2 w (or_introl eq_refl)) Z0 Z1) as [-> ->].
    destruct (IH (fun r I => P2 r (or_intror I)) ws ltac:(cbn in L; lia) (fun r I => W2 r (or_intror I)) (fun r I => NZ r (or_intror I))) as [-> ->]. split; reflexivity. }
  split; [|split].
  - intros u. unfold nurbezier_surface. cbv zeta. split.
    + destruct (Q 0 (hd ORIGIN) (hd 0)) as [-> ->]; [|reflexivity]. intros p w LP LW Z0 _. assert (w <> []) by (intros E; subst w; discriminate).
      split; [apply C17_starts_at_first; [congruence|assumption|assumption]|]. rewrite <- C15_decasteljau_is_bernstein_weights by assumption. apply bezierdc_R_0. assumption.
    + destruct (Q 1 (fun r => last r ORIGIN) (fun r => last r 0)) as [-> ->]; [|reflexivity]. intros p w LP LW _ Z1. assert (w <> []) by (intros E; subst w; discriminate).
      split; [apply C17_ends_at_last; [congruence|assumption|assumption]|]. rewrite <- C15_decasteljau_is_bernstein_weights by assumption. apply bezierdc_R_1. assumption.
  - intros v NB. unfold nurbezier_surface. destruct pts as [|p pts]; [discriminate|]. destruct ws as [|w ws]; [discriminate|].
    rewrite C17_starts_at_first; [reflexivity| | |exact NB]; cbn [length map combine] in *; [rewrite !map_length, combine_length; lia|discriminate].
  - intros v NB. unfold nurbezier_surface. assert (LC : length (combine pts ws) = S n) by (rewrite combine_length; lia).
    rewrite C17_ends_at_last.
    + rewrite <- (last_nth' _ n ORIGIN) by (rewrite map_length; exact LC).
      rewrite (nth_indep _ ORIGIN ((fun pw : list vec * list R => nurbezier v (fst pw) (snd pw)) ([], []))) by (rewrite map_length; lia).
      rewrite (map_nth (fun pw : list vec * list R => nurbezier v (fst pw) (snd pw))), combine_nth by lia.
      cbn [fst snd]. rewrite !last_nth' by lia. reflexivity.
    + rewrite !map_length, combine_length. lia.
    + destruct ws; discriminate.
    + rewrite <- (last_nth' _ n 0) by (rewrite map_length; exact W1). rewrite (nth_indep _ 0 (bezier v [])) by (rewrite map_length; lia).
      rewrite (map_nth (fun w => bezier v w)), last_nth' by lia. exact NB.
Qed.

(** ** Cases *)
(** A fit without error has converged. *)
Lemma exact_fit tg o n m x : (forall i c, (i < o - 2)%nat -> (c < n * 4)%nat -> surf_diff tg m (surf_points tg o n m x) (surf_t n m x) i c = 0) ->
  forall e, (e < (m - 2) * n * 4)%nat -> surf_jac tg o n m x e = 0.
Proof.
  intros H e E. assert (N : (0 < n)%nat) by nia. unfold surf_jac, surf_inverse, surf_inverse_fast, assign_slice.
  replace ((m - 2) * n * 4 <=? e)%nat with false by (symmetry; apply Nat.leb_gt; exact E). cbn [andb].
  replace (0 <=? e)%nat with true by reflexivity. replace (e <? 0 + (m - 2) * n * 4)%nat with true by (symmetry; apply Nat.ltb_lt; exact E). cbn [andb].
  rewrite Nat.sub_0_r. unfold surf_dp, unflat. rewrite <- (sumn_zero (o - 2)). apply sumn_ext. intros i I. rewrite H; [ring|exact I|].
  pose proof (Nat.mod_upper_bound (e / 4) n ltac:(lia)). pose proof (Nat.mod_upper_bound e 4 ltac:(lia)). lia.
Qed.

(** Four triangular teeth, in two segments of heights 1 and 2, with or without an outside ring. *)
Definition square_profile : cv_profile :=
  mkCP [ex_line (V 5 (-1) 0) (V 6 (-1) 0); CPlain (line_curve (V 6 (-1) 0) (V 6 (-1) 0) false); ex_line (V 6 (-1) 0) (V 7 (-1 / 2) 0)]
    (ex_line (V 7 (-1 / 2) 0) (V 7 (1 / 2) 0)) (ex_line (V 1 (-5) 0) (V 5 (-1) 0)) (ex_line (V 1 (-4) 0) (V 4 1 0))
    (ex_line (V 1 (-4) 0) (V 1 (-5) 0)) (ex_line (V 4 1 0) (V 5 1 0)).
Definition lifted (z : R) : gtransform := mkG (V 0 0 z) UNIT3X3 1 0.
Lemma square_start : outline_start square_profile = V 1 (-5) 0.
Proof. unfold outline_start. change (fst (hd (ORIGIN, ORIGIN) (route square_profile))) with (c_eval (line_curve (V 1 (-5) 0) (V 5 (-1) 0) true) 0). apply line_ends. Qed.
Lemma square_regular z : regular_section square_profile (lifted z) (PI / 2).
Proof.
  split; [repeat split; repeat constructor|]. split; [reflexivity|]. split.
  { unfold route, square_profile, ex_line, leg, back, image, starts, ends. cbn [cp_rd cp_ra cp_tooth cp_ro cp_ro0 cp_ro2 cv_curve map rev app filter fst snd].
    change (c_act (line_curve (V 6 (-1) 0) (V 6 (-1) 0) false)) with false.
    repeat match goal with |- context [c_act (line_curve ?p ?q true)] => change (c_act (line_curve p q true)) with true end.
    cbv iota. cbn [map snd connected fst]. repeat match goal with |- context [c_eval (line_curve ?p ?q true) 0] => rewrite (proj1 (line_ends p q)) end.
    repeat match goal with |- context [c_eval (line_curve ?p ?q true) 1] => rewrite (proj2 (line_ends p q)) end.
    unfold across. cbn [vx vy vz]. repeat split; f_equal; lra. }
  split; [reflexivity|]. split; [|repeat split].
  rewrite square_start. change (ends (cp_ro2 square_profile)) with (c_eval (line_curve (V 4 1 0) (V 5 1 0) true) 1). rewrite (proj2 (line_ends _ _)).
  apply vec_eq; cbn; rewrite ?sin_PI2, ?cos_PI2; ring.
Qed.
Lemma square_knots optC nhz ratio z c : section_chain optC nhz ratio (fun _ => square_profile) lifted z = Ok c -> nb_knots c = seq 0 10.
Proof. intros E. injection E as <-. reflexivity. Qed.
Lemma square_apart z : let a := place lifted z (outline_start square_profile) in
  a = mapp (rotz (PI / 2)) a \/ DELTA / 100 <= norm (vsub a (mapp (rotz (PI / 2)) a)).
Proof.
  cbv zeta. right. rewrite square_start. unfold place. rewrite apply_gear_transform_eq. unfold lifted. cbn [g_center g_orient g_scale g_angle].
  rewrite mapp_I, rotz_0, mapp_I. unfold norm. replace (dot _ _) with 52.
  - apply Rle_trans with 1; [unfold DELTA; lra|]. rewrite <- sqrt_1. apply sqrt_le_1_alt. lra.
  - unfold rotz, mapp, vsub, vadd, smul, dot. cbn. rewrite sin_PI2, cos_PI2. ring.
Qed.
Example C115_closed_example optC optS inside : exists c,
  build_cylinder optC optS 4 2 1 (fun _ => square_profile) lifted 4 4 (PI / 2) inside (-6) [0; 1; 3] = Ok c /\ paired (all_edges c) /\ length (cy_sides c) = 48%nat.
Proof.
  assert (TW : n_z_tweens 2 1 = 2%nat).
  { unfold n_z_tweens. replace (ceilZ ((INR 2 - 2) * 1)) with 0%Z; [reflexivity|]. symmetry. apply ceilZ_unique. cbn. lra. }
  apply (C115_closed optC optS 4 2 1 (fun _ => square_profile) lifted 4 4 (PI / 2) inside (-6) [0; 1; 3] (seq 0 10)); try lia; try lra.
  - cbn. lia.
  - intros z _. split; [apply square_regular|apply square_knots].
  - intros z _. apply square_apart.
  - intros _ z _. reflexivity.
Qed.

(** The same teeth in one segment of three sections: the straight surface through the first and the last section fits exactly. *)
Definition square_points : list vec :=
  let t := line_curve (V 6 (-1) 0) (V 7 (-1 / 2) 0) true in
  [c_eval (line_curve (V 1 (-5) 0) (V 5 (-1) 0) true) 0; c_eval (line_curve (V 5 (-1) 0) (V 6 (-1) 0) true) 0; c_eval t 0;
   c_eval (line_curve (V 7 (-1 / 2) 0) (V 7 (1 / 2) 0) true) 0; mirror_y (c_eval t 1); mirror_y (c_eval t 0);
   c_eval (line_curve (V 4 1 0) (V 5 1 0) true) 1; c_eval (line_curve (V 1 (-4) 0) (V 4 1 0) true) 1;
   c_eval (line_curve (V 1 (-4) 0) (V 1 (-5) 0) true) 0; c_eval (line_curve (V 1 (-4) 0) (V 1 (-5) 0) true) 1].
Lemma square_chain optC nhz ratio z : nb_points (chain_at optC nhz ratio (fun _ => square_profile) lifted z) = map (place lifted z) square_points /\
  nb_weights (chain_at optC nhz ratio (fun _ => square_profile) lifted z) = repeat 1 10.
Proof. split; reflexivity. Qed.
Definition straight (tg : arr3) : arr1 := fun e =>
  if (e <? 40)%nat then (tg 0%nat (e / 4)%nat (e mod 4) + tg 2%nat (e / 4)%nat (e mod 4)) / 2 else 1 / 2.
Example C115_fitted_example optC inside : exists c,
  build_cylinder optC straight 4 3 1 (fun _ => square_profile) lifted 4 4 (PI / 2) inside (-6) [0; 2] = Ok c /\ paired (all_edges c) /\ length (cy_sides c) = 24%nat.
Proof.
  assert (TW : n_z_tweens 3 1 = 3%nat).
  { unfold n_z_tweens. replace (ceilZ ((INR 3 - 2) * 1)) with 1%Z; [reflexivity|]. symmetry. apply ceilZ_unique. cbn. lra. }
  apply (C115_closed optC straight 4 3 1 (fun _ => square_profile) lifted 4 4 (PI / 2) inside (-6) [0; 2] (seq 0 10)); try lia; try lra.
  - cbn. lia.
  - intros z _. split; [apply square_regular|apply square_knots].
  - right. rewrite TW. split; [lia|]. intros hs [<-|[]]. cbv zeta. set (tg := stack_target _). change (S (last (seq 0 10) 0%nat)) with 10%nat.
    assert (MID : forall a b, (a < 10)%nat -> (b < 4)%nat -> tg 1%nat a b = (tg 0%nat a b + tg 2%nat a b) / 2).
    { intros a b A B. unfold tg, stack_target, linspace. cbn [nth map seq].
      repeat rewrite (fun z => proj1 (square_chain optC 4 1 z)). repeat rewrite (fun z => proj2 (square_chain optC 4 1 z)).
      assert (LQ : length square_points = 10%nat) by reflexivity.
      assert (NP : forall z, nth a (map (place lifted z) square_points) ORIGIN = place lifted z (nth a square_points ORIGIN)).
      { intros z. rewrite (nth_indep _ ORIGIN (place lifted z ORIGIN)) by (rewrite map_length, LQ; exact A). apply map_nth. }
      rewrite !NP. generalize (nth a square_points ORIGIN). intros p. unfold place. rewrite !apply_gear_transform_eq. unfold lifted.
      cbn [g_center g_orient g_scale g_angle]. rewrite rotz_0, !mapp_I.
      destruct b as [|[|[|[|b]]]]; try lia; [destruct p as [x y w]; cbn; field ..|]. cbv iota. field. }
    repeat split.
    + apply exact_fit. intros i c I C. assert (i = 0%nat) as -> by lia. change (10 * 4)%nat with 40%nat in C.
      unfold surf_diff. change (0 + 1)%nat with 1%nat. change (surf_t 10 3 (straight tg) 0%nat) with (1 / 2).
      assert (C4 : (c mod 4 < 4)%nat) by (apply Nat.mod_upper_bound; lia).
      assert (C10 : (c / 4 < 10)%nat) by (apply Nat.div_lt_upper_bound; lia).
      assert (EC : (c / 4 * 4 + c mod 4 = c)%nat) by (pose proof (Nat.div_mod c 4 ltac:(lia)); lia).
      replace (col 3 (flat (surf_points tg 3 10 3 (straight tg))) c) with [flat tg 0%nat c; (flat tg 0%nat c + flat tg 2%nat c) / 2; flat tg 2%nat c].
      * unfold flat. rewrite MID by assumption. unfold bezierdc. cbn. field.
      * unfold col, entries. cbn [seq map]. f_equal. f_equal. unfold flat, surf_points. cbn [Nat.leb Nat.ltb andb Nat.sub Nat.mul].
        change (0 + c / 4)%nat with (c / 4)%nat. rewrite EC. unfold straight. replace (c <? 40)%nat with true by (symmetry; apply Nat.ltb_lt; exact C). reflexivity.
    + cbn. constructor; [intros []|constructor].
    + change (surf_t 10 3 (straight tg) i) with (1 / 2). lra.
    + change (surf_t 10 3 (straight tg) i) with (1 / 2). lra.
  - intros z _. apply square_apart.
  - intros _ z _. reflexivity.
Qed.
(** A fit that was stopped early may tear neighbouring teeth apart, although all sections fit together. *)
Theorem C115_seam_refuted : exists tg x, let P := surf_points tg 3 2 3 x in
  (forall i, (i < 3)%nat -> net_pt tg i 1 = mapp (rotz PI) (net_pt tg i 0) /\ net_w tg i 1 = net_w tg i 0) /\
  surf_t 2 3 x 0%nat = 1 / 2 /\ net_pt P 1 1 <> mapp (rotz PI) (net_pt P 1 0).
Proof.
  exists (fun i a b => match b with 0%nat => if (a =? 0)%nat then 1 else -1 | 1%nat => 0 | 2%nat => INR i | _ => 1 end).
  exists (fun e => match e with 8%nat => 1 / 2 | _ => 1 end). cbv zeta. split; [|split].
  - intros i _. split; [|reflexivity]. apply vec_eq; cbn; rewrite ?sin_PI, ?cos_PI; ring.
  - reflexivity.
  - intros E. apply (f_equal vx) in E. cbn in E. rewrite sin_PI, cos_PI in E. lra.
Qed.
Example C115_seam_example : let tg := fun i a b => match b with 0%nat => if (a =? 0)%nat then 1 else -1 | 1%nat => 0 | 2%nat => INR i | _ => 1 end in
  let x := fun e => match e with 0%nat => 1 | 2%nat => 1 | 3%nat => 1 | 4%nat => -1 | 6%nat => 1 | 7%nat => 1 | 8%nat => 1 / 2 | _ => 0 end in
  converged tg 3 2 3 x /\ net_pt (surf_points tg 3 2 3 x) 1 1 = mapp (rotz PI) (net_pt (surf_points tg 3 2 3 x) 1 0).
Proof.
  intros tg x. assert (C : converged tg 3 2 3 x).
  { split; [|split].
    - apply exact_fit. intros i c I H. assert (i = 0%nat) as -> by lia. unfold surf_diff, surf_t, col, entries, flat, surf_points. 
      do 8 (destruct c as [|c]; [unfold x, tg, bezierdc; cbn; field|]). lia.
    - cbn. constructor; [intros []|constructor].
    - intros i I. assert (i = 0%nat) as -> by lia. unfold surf_t, x. cbn. lra. }
  split; [exact C|]. apply (C115_seam tg 3 2 3 x 0 1 PI); try lia; [exact C|].
  intros i _. split; [|reflexivity]. apply vec_eq; unfold tg; cbn; rewrite ?sin_PI, ?cos_PI; ring.
Qed.
Example C115_edges_example v : 0 <= v <= 1 ->
  nurbezier_surface 0 v [[V 0 0 0; V 1 0 0; V 2 1 0]; [V 0 0 1; V 1 0 1; V 2 1 3]] [[1; 2; 1]; [1; 1; 1]] = nurbezier v [V 0 0 0; V 1 0 0; V 2 1 0] [1; 2; 1].
Proof.
  intros H. apply (proj1 (proj2 (C115_edges ([[V 0 0 0; V 1 0 0; V 2 1 0]; [V 0 0 1; V 1 0 1; V 2 1 3]], [[1; 2; 1]; [1; 1; 1]]) 1 2
    ltac:(split; [reflexivity|]; intros r [<-|[<-|[]]]; reflexivity) ltac:(split; [reflexivity|]; intros r [<-|[<-|[]]]; reflexivity)
    ltac:(intros w [<-|[<-|[]]]; cbn; lra)))). cbn [bottom_edge fst snd hd].
  rewrite <- C15_decasteljau_is_bernstein_weights by discriminate. apply Rgt_not_eq. unfold bezierdc. cbn. nra.
Qed.
