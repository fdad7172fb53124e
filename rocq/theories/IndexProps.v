(** C110: the winding index computed by [curve_index]. *)
From Coq Require Import Reals Lra Lia Psatz List ZArith Znumtheory Bool.
From Coquelicot Require Import Complex.
From Verif Require Import Num Vec Coords Interp Curve Bezier CurveLem ArcLem ArcProps GearMath Extra.
Import ListNotations.
Open Scope R_scope.

(** *** Finite sums of complex numbers *)
Fixpoint csum (f : nat -> C) (n : nat) : C := match n with O => RtoC 0 | S m => Cplus (csum f m) (f m) end.
Fixpoint cpow (z : C) (n : nat) : C := match n with O => RtoC 1 | S m => Cmult z (cpow z m) end.
(** The unit complex number of an angle. *)
Definition cis (a : R) : C := (cos a, sin a).

Lemma fold_csum f n : fold_right Cplus (RtoC 0) (map f (seq 0 n)) = csum f n.
Proof.
  induction n as [|n IH]; [reflexivity|]. rewrite seq_S, map_app, fold_right_app. cbn [map fold_right Nat.add csum]. rewrite <- IH.
  generalize (seq 0 n). intros l. induction l as [|x l IL]; cbn [map fold_right]; [ring|]. rewrite IL. ring.
Qed.
Lemma csum_ext f g n : (forall k, (k < n)%nat -> f k = g k) -> csum f n = csum g n.
Proof. intros H. induction n as [|n IH]; [reflexivity|]. cbn [csum]. rewrite IH, H by (try lia; intros; apply H; lia). reflexivity. Qed.
Lemma csum_scale z f n : csum (fun k => Cmult z (f k)) n = Cmult z (csum f n).
Proof. induction n as [|n IH]; cbn [csum]; [ring|]. rewrite IH. ring. Qed.
Lemma csum_plus f g n : csum (fun k => Cplus (f k) (g k)) n = Cplus (csum f n) (csum g n).
Proof. induction n as [|n IH]; cbn [csum]; [ring|]. rewrite IH. ring. Qed.
Lemma csum_const z n : csum (fun _ => z) n = Cmult (RtoC (INR n)) z.
Proof. induction n as [|n IH]; [cbn; ring|]. cbn [csum]. rewrite IH, S_INR, RtoC_plus. ring. Qed.
Lemma csum_zero n : csum (fun _ => RtoC 0) n = RtoC 0.
Proof. rewrite csum_const. ring. Qed.
Lemma csum_swap (f : nat -> nat -> C) n m : csum (fun j => csum (fun k => f j k) m) n = csum (fun k => csum (fun j => f j k) n) m.
Proof.
  induction n as [|n IH]; cbn [csum]; [symmetry; apply csum_zero|]. rewrite IH, csum_plus. reflexivity.
Qed.
Lemma csum_first f n : csum f (S n) = Cplus (f 0%nat) (csum (fun k => f (S k)) n).
Proof. induction n as [|n IH]; [cbn [csum]; ring|]. cbn [csum] in *. rewrite IH. ring. Qed.
Lemma csum_rev f n : csum (fun k => f (n - 1 - k)%nat) n = csum f n.
Proof.
  revert f. induction n as [|n IH]; intros f; [reflexivity|]. rewrite csum_first.
  replace (S n - 1 - 0)%nat with n by lia. cbn [csum]. rewrite Cplus_comm. f_equal. rewrite <- (IH f). apply csum_ext.
  intros k L. f_equal. lia.
Qed.

Lemma cpow_add z a b : cpow z (a + b) = Cmult (cpow z a) (cpow z b).
Proof. induction a as [|a IH]; cbn [Nat.add cpow]; [ring|]. rewrite IH. ring. Qed.
Lemma cpow_mul z a b : cpow z (a * b) = cpow (cpow z a) b.
Proof. rewrite Nat.mul_comm. induction b as [|b IH]; cbn [Nat.mul cpow]; [reflexivity|]. rewrite cpow_add, IH. reflexivity. Qed.
Lemma cpow_prod z y n : cpow (Cmult z y) n = Cmult (cpow z n) (cpow y n).
Proof. induction n as [|n IH]; cbn [cpow]; [ring|]. rewrite IH. ring. Qed.
Lemma cpow_one n : cpow (RtoC 1) n = RtoC 1.
Proof. induction n as [|n IH]; cbn [cpow]; [reflexivity|]. rewrite IH. ring. Qed.
Lemma Cmod_cpow z n : Cmod (cpow z n) = Cmod z ^ n.
Proof. induction n as [|n IH]; cbn [cpow pow]; [apply Cmod_1|]. rewrite Cmod_mult, IH. reflexivity. Qed.
Lemma geometric z n : Cmult (Cminus (RtoC 1) z) (csum (cpow z) n) = Cminus (RtoC 1) (cpow z n).
Proof. induction n as [|n IH]; cbn [csum cpow]; [ring|]. rewrite Cmult_plus_distr_l, IH. ring. Qed.

Lemma cis_add a b : cis (a + b) = Cmult (cis a) (cis b).
Proof. unfold cis, Cmult. cbn [fst snd]. rewrite cos_plus, sin_plus. f_equal; ring. Qed.
Lemma cis_0 : cis 0 = RtoC 1.
Proof. unfold cis. rewrite cos_0, sin_0. reflexivity. Qed.
Lemma cis_mod a : Cmod (cis a) = 1.
Proof. unfold Cmod, cis. cbn [fst snd]. replace (cos a ^ 2 + sin a ^ 2) with 1; [apply sqrt_1|]. pose proof (sin2_cos2 a) as H. unfold Rsqr in H. simpl. lra. Qed.
Lemma cis_nz a : cis a <> RtoC 0.
Proof. intros E. pose proof (cis_mod a) as M. rewrite E, Cmod_0 in M. lra. Qed.
Lemma cis_pow a n : cpow (cis a) n = cis (INR n * a).
Proof.
  induction n as [|n IH]; cbn [cpow]; [rewrite Rmult_0_l, cis_0; reflexivity|]. rewrite IH, <- cis_add. f_equal. rewrite S_INR. ring.
Qed.
Lemma cis_period a (k : Z) : cis (a + 2 * IZR k * PI) = cis a.
Proof. unfold cis. rewrite cos_Zperiod, sin_Zperiod. reflexivity. Qed.
Lemma cis_neg a : cis (- a) = Cinv (cis a).
Proof.
  assert (H : Cmult (cis a) (cis (- a)) = RtoC 1) by (rewrite <- cis_add, Rplus_opp_r; apply cis_0).
  pose proof (cis_nz a). rewrite <- (Cmult_1_l (cis (- a))), <- (Cinv_l (cis a)) by assumption.
  rewrite <- Cmult_assoc, H. ring.
Qed.
Lemma cis_one a : cis a = RtoC 1 -> exists k : Z, a = 2 * IZR k * PI.
Proof.
  unfold cis, RtoC. intros E. injection E as C S.
  assert (H : sin (a / 2) = 0).
  { replace a with (2 * (a / 2)) in C by field. rewrite cos_2a_sin in C. nra. }
  destruct (sin_eq_0_0 _ H) as [k K]. exists k. lra.
Qed.

(** *** Roots of unity *)
Lemma roots_sum w n : (forall j, (0 < j < n)%nat -> cpow w j <> RtoC 1) -> cpow w n = RtoC 1 ->
  forall j, (0 < j < n)%nat -> csum (fun k => cpow w (j * k)) n = RtoC 0.
Proof.
  intros P W j J. pose proof (geometric (cpow w j) n) as G.
  rewrite <- cpow_mul, (Nat.mul_comm j n), cpow_mul, W, cpow_one in G.
  rewrite (csum_ext _ (cpow (cpow w j))) by (intros; apply cpow_mul).
  assert (N : Cminus (RtoC 1) (cpow w j) <> RtoC 0) by (apply Cminus_eq_contra; intros E; apply (P j J); auto).
  set (s := csum _ n) in *. rewrite <- (Cmult_1_l s), <- (Cinv_l _ N), <- Cmult_assoc, G. ring.
Qed.

(** The sum over the roots of unity of [1 / (1 - q w^k)] is [n / (1 - q^n)]. *)
Lemma partial_fractions w n q : (0 < n)%nat -> (forall j, (0 < j < n)%nat -> cpow w j <> RtoC 1) -> cpow w n = RtoC 1 ->
  (forall k, (k < n)%nat -> Cminus (RtoC 1) (Cmult q (cpow w k)) <> RtoC 0) ->
  Cmult (Cminus (RtoC 1) (cpow q n)) (csum (fun k => Cinv (Cminus (RtoC 1) (Cmult q (cpow w k)))) n) = RtoC (INR n).
Proof.
  intros N P W Q. rewrite <- csum_scale.
  rewrite (csum_ext _ (fun k => csum (fun j => Cmult (cpow q j) (cpow w (j * k))) n)).
  - rewrite csum_swap. destruct n as [|n]; [lia|]. rewrite csum_first.
    rewrite (csum_ext _ (fun _ => RtoC 1)) by (intros; cbn [cpow Nat.mul]; ring). rewrite csum_const.
    rewrite (csum_ext _ (fun _ => RtoC 0)); [rewrite csum_zero; ring|]. intros k L.
    rewrite csum_scale, (roots_sum w (S n) P W) by lia. ring.
  - intros k L. rewrite (csum_ext (fun j => Cmult (cpow q j) (cpow w (j * k))) (cpow (Cmult q (cpow w k)))).
    + pose proof (geometric (Cmult q (cpow w k)) n) as G. rewrite cpow_prod, <- cpow_mul, (Nat.mul_comm k n), cpow_mul, W, cpow_one in G.
      rewrite Cmult_1_r in G. rewrite <- G. specialize (Q k L). field. exact Q.
    + intros j _. rewrite cpow_prod, <- cpow_mul, (Nat.mul_comm k j). reflexivity.
Qed.

(** *** The function *)
Definition index_term (p : nat -> C) (n : nat) (ce : C) (k : nat) : C := Cdiv (index_diff p n k) (Cminus (p k) ce).

Lemma index_ok c center n : (forall k, (k < n)%nat -> index_sample c n k <> to_complex center) ->
  curve_index c center n = Ok (Cmod (csum (index_term (index_sample c n) n (to_complex center)) n) / (2 * PI)).
Proof.
  intros H. unfold curve_index. destruct (existsb _ (seq 0 n)) eqn:E.
  - apply existsb_exists in E as (k & K & E). apply in_seq in K. exfalso. apply (H k); [lia|].
    destruct (Req_EM_T _ 0) as [Z|]; [|discriminate]. apply Cmod_eq_0 in Z.
    rewrite <- (Cplus_0_l (to_complex center)), <- Z. unfold Cminus. ring.
  - unfold index_sum. rewrite fold_csum. f_equal. unfold Rdiv. rewrite Rmult_1_r. reflexivity.
Qed.
Lemma index_err c center n k : (k < n)%nat -> index_sample c n k = to_complex center -> curve_index c center n = Err ZeroDivisionError.
Proof.
  intros L H. unfold curve_index. destruct (existsb _ (seq 0 n)) eqn:E; [reflexivity|]. exfalso.
  assert (T : existsb (fun k => if Req_EM_T (Cmod (Cminus (index_sample c n k) (to_complex center))) 0 then true else false) (seq 0 n) = true).
  { apply existsb_exists. exists k. split; [apply in_seq; lia|]. rewrite H. unfold Cminus. rewrite Cplus_opp_r, Cmod_0.
    destruct (Req_EM_T 0 0); [reflexivity|contradiction]. }
  congruence.
Qed.
Lemma index_cases c n ce : (forall k, (k < n)%nat -> index_sample c n k <> ce) \/ exists k, (k < n)%nat /\ index_sample c n k = ce.
Proof.
  generalize n at 1 3. intros m. induction m as [|m [IH|(k & K & E)]].
  - left. intros k L. lia.
  - destruct (Ceq_dec (index_sample c n m) ce) as [E|E]; [right; exists m; split; [lia|exact E]|].
    left. intros k L. destruct (Nat.eq_dec k m) as [->|N]; [exact E|apply IH; lia].
  - right. exists k. split; [lia|exact E].
Qed.

(** A curve that runs round a circle, [w] times, starting at the angle [ph]; heights do not matter. Specification only. *)
Definition runs_round (c : curve) (z : C) (r ph : R) (w : Z) : Prop := forall s, 0 <= s <= 1 ->
  to_complex (c_eval c s) = Cplus z (Cmult (RtoC r) (cis (ph + 2 * PI * IZR w * s))).

Lemma circle_sample c z r ph w n k : runs_round c z r ph w -> (0 < n)%nat ->
  index_sample c n k = Cplus z (Cmult (RtoC r) (Cmult (cis ph) (cis (2 * PI * IZR w / INR n * INR k)))).
Proof.
  intros H N. unfold index_sample. assert (NP : 0 < INR n) by (apply lt_0_INR, N).
  pose proof (Nat.mod_upper_bound k n ltac:(lia)) as B. rewrite H.
  - f_equal. f_equal. rewrite <- cis_add. rewrite (Nat.div_mod_eq k n) at 2.
    rewrite plus_INR, mult_INR, <- (cis_period _ (w * Z.of_nat (k / n))). f_equal.
    rewrite mult_IZR, <- INR_IZR_INZ. field. lra.
  - split; [apply Rmult_le_pos; [apply pos_INR|left; apply Rinv_0_lt_compat, NP]|].
    apply (Rmult_le_reg_r (INR n)); [exact NP|]. replace (INR (k mod n) / INR n * INR n) with (INR (k mod n)) by (field; lra).
    rewrite Rmult_1_l. apply le_INR. lia.
Qed.

Lemma circle_term c z r ph w n ce k : runs_round c z r ph w -> (0 < n)%nat -> r <> 0 ->
  let q := Cdiv (Cminus ce z) (Cmult (RtoC r) (cis ph)) in
  let a := 2 * PI * IZR w / INR n in
  (index_sample c n k = ce <-> Cminus (RtoC 1) (Cmult q (cpow (cis (- a)) k)) = RtoC 0) /\
  (index_sample c n k <> ce ->
    index_term (index_sample c n) n ce k = Cmult (Cmult Ci (RtoC (sin a))) (Cinv (Cminus (RtoC 1) (Cmult q (cpow (cis (- a)) k))))).
Proof.
  intros H N R0 q a. assert (NP : 0 < INR n) by (apply lt_0_INR, N).
  assert (RC : RtoC r <> RtoC 0) by (intros E; apply R0; injection E; auto).
  pose proof (cis_nz ph) as PZ. pose proof (cis_nz (a * INR k)) as KZ.
  assert (W : cpow (cis (- a)) k = Cinv (cis (a * INR k))) by (rewrite cis_pow, <- cis_neg; f_equal; ring).
  rewrite W.
  assert (D : Cminus (index_sample c n k) ce =
    Cmult (Cmult (Cmult (RtoC r) (cis ph)) (cis (a * INR k))) (Cminus (RtoC 1) (Cmult q (Cinv (cis (a * INR k)))))).
  { rewrite (circle_sample c z r ph w n k H N). fold a. unfold q. field. repeat split; assumption. }
  assert (NZ : Cmult (Cmult (RtoC r) (cis ph)) (cis (a * INR k)) <> RtoC 0) by (repeat apply Cmult_neq_0; assumption).
  assert (I : index_sample c n k = ce <-> Cminus (RtoC 1) (Cmult q (Cinv (cis (a * INR k)))) = RtoC 0).
  { split.
    - intros E. rewrite E in D. replace (Cminus ce ce) with (RtoC 0) in D by ring.
      destruct (Ceq_dec (Cminus (RtoC 1) (Cmult q (Cinv (cis (a * INR k))))) (RtoC 0)) as [Z|Z]; [exact Z|].
      exfalso. apply (Cmult_neq_0 _ _ NZ Z). auto.
    - intros E. rewrite E, Cmult_0_r in D. rewrite <- (Cplus_0_l ce), <- D. ring. }
  split; [exact I|]. intros NE. unfold index_term. rewrite D. unfold index_diff.
  rewrite !(circle_sample c z r ph w n _ H N). fold a.
  assert (NQ : Cminus (RtoC 1) (Cmult q (Cinv (cis (a * INR k)))) <> RtoC 0) by (intros E; apply NE, I, E).
  assert (E1 : cis (a * INR (k + 1)) = Cmult (cis (a * INR k)) (cis a)) by (rewrite <- cis_add, plus_INR; f_equal; cbn [INR]; ring).
  assert (E2 : cis (a * INR (k + n - 1)) = Cmult (cis (a * INR k)) (cis (- a))).
  { rewrite <- cis_add, minus_INR, plus_INR by lia. rewrite <- (cis_period (a * INR k + - a) w). f_equal. cbn [INR]. unfold a. field. lra. }
  rewrite E1, E2.
  assert (SI : Cminus (cis a) (cis (- a)) = Cmult (RtoC 2) (Cmult Ci (RtoC (sin a)))).
  { unfold cis, Cminus, Cplus, Copp, Cmult, RtoC, Ci. cbn [fst snd]. rewrite cos_neg, sin_neg. f_equal; ring. }
  assert (T2 : RtoC 2 <> RtoC 0) by (intros E; injection E; lra).
  set (y := Cminus (RtoC 1) _) in *. set (e := cis (a * INR k)) in *.
  replace (Cminus (Cplus z (Cmult (RtoC r) (Cmult (cis ph) (Cmult e (cis a))))) (Cplus z (Cmult (RtoC r) (Cmult (cis ph) (Cmult e (cis (- a)))))))
    with (Cmult (Cmult (Cmult (RtoC r) (cis ph)) e) (Cminus (cis a) (cis (- a)))) by ring.
  rewrite SI. unfold Cdiv at 1 2. clearbody y e. field. repeat split; assumption.
Qed.

(** *** Circles *)
Lemma root_primitive w n j : rel_prime w (Z.of_nat n) -> (0 < j < n)%nat -> cpow (cis (- (2 * PI * IZR w / INR n))) j <> RtoC 1.
Proof.
  intros RP J E. rewrite cis_pow in E. destruct (cis_one _ E) as [k K].
  assert (NP : 0 < INR n) by (apply lt_0_INR; lia). pose proof PI_RGT_0.
  assert (K' : INR j * IZR w = - IZR k * INR n).
  { apply (Rmult_eq_reg_l (- (2 * PI))); [|lra]. apply (Rmult_eq_reg_r (/ INR n)); [|apply Rinv_neq_0_compat; lra].
    transitivity (INR j * - (2 * PI * IZR w / INR n)); [field; lra|]. rewrite K. field. lra. }
  rewrite !INR_IZR_INZ, <- opp_IZR, <- !mult_IZR in K'. apply eq_IZR in K'.
  assert (DV : (Z.of_nat n | w * Z.of_nat j)%Z) by (exists (- k)%Z; lia).
  apply Gauss in DV; [|apply rel_prime_sym, RP]. apply Z.divide_pos_le in DV; lia.
Qed.

(** A circle run round [w] times, [w] coprime to the number of points, about any centre: the exact value. *)
Theorem C110_circle c z r ph w n center : runs_round c z r ph w -> (0 < n)%nat -> rel_prime w (Z.of_nat n) -> r <> 0 ->
  let q := Cdiv (Cminus (to_complex center) z) (Cmult (RtoC r) (cis ph)) in
  (cpow q n = RtoC 1 -> curve_index c center n = Err ZeroDivisionError) /\
  (cpow q n <> RtoC 1 -> curve_index c center n =
    Ok (INR n * Rabs (sin (2 * PI * IZR w / INR n)) / (2 * PI * Cmod (Cminus (RtoC 1) (cpow q n))))).
Proof.
  intros H N RP R0 q. set (a := 2 * PI * IZR w / INR n). assert (NP : 0 < INR n) by (apply lt_0_INR, N).
  pose proof PI_RGT_0 as PP.
  assert (W : cpow (cis (- a)) n = RtoC 1).
  { rewrite cis_pow, <- cis_0, <- (cis_period 0 (- w)). f_equal. rewrite opp_IZR. unfold a. field. lra. }
  pose proof (fun k => circle_term c z r ph w n (to_complex center) k H N R0) as T. cbv zeta in T. fold q a in T.
  destruct (index_cases c n (to_complex center)) as [A|(k & K & E)].
  - assert (A' : forall k, (k < n)%nat -> Cminus (RtoC 1) (Cmult q (cpow (cis (- a)) k)) <> RtoC 0).
    { intros k K Z. apply (A k K), (T k), Z. }
    pose proof (partial_fractions (cis (- a)) n q N (fun j J => root_primitive w n j RP J) W A') as PF.
    assert (QN : Cminus (RtoC 1) (cpow q n) <> RtoC 0).
    { intros Z. rewrite Z, Cmult_0_l in PF. injection PF. lra. }
    split; [intros E; exfalso; apply QN; rewrite E; ring|]. intros _. rewrite (index_ok _ _ _ A). f_equal.
    rewrite (csum_ext _ (fun k => Cmult (Cmult Ci (RtoC (sin a))) (Cinv (Cminus (RtoC 1) (Cmult q (cpow (cis (- a)) k)))))) by (intros k K; apply T, A, K).
    rewrite csum_scale. set (s := csum _ n) in *.
    apply (f_equal Cmod) in PF. rewrite Cmod_mult, Cmod_R, Rabs_right in PF by lra.
    rewrite !Cmod_mult, Cmod_R. assert (CI : Cmod Ci = 1).
    { unfold Cmod, Ci. cbn [fst snd]. replace (0 ^ 2 + 1 ^ 2) with 1 by ring. apply sqrt_1. }
    rewrite CI, <- PF. apply Cmod_gt_0 in QN. field. lra.
  - split; [intros _; apply (index_err c center n k K E)|]. intros QN. exfalso.
    apply T in E. apply QN. assert (Q : Cmult q (cpow (cis (- a)) k) = RtoC 1).
    { rewrite <- (Cplus_0_r (Cmult q _)), <- E. ring. }
    apply (f_equal (fun x => cpow x n)) in Q. rewrite cpow_prod, <- cpow_mul, (Nat.mul_comm k n), cpow_mul, W, !cpow_one, Cmult_1_r in Q. exact Q.
Qed.

(** About its own centre, any number of turns. *)
Theorem C110_own_centre c z r ph w n center : runs_round c z r ph w -> (0 < n)%nat -> r <> 0 -> to_complex center = z ->
  curve_index c center n = Ok (INR n * Rabs (sin (2 * PI * IZR w / INR n)) / (2 * PI)).
Proof.
  intros H N R0 E. assert (NP : 0 < INR n) by (apply lt_0_INR, N). pose proof PI_RGT_0 as PP.
  pose proof (fun k => circle_term c z r ph w n (to_complex center) k H N R0) as T. cbv zeta in T. rewrite E in T.
  assert (Q : Cdiv (Cminus z z) (Cmult (RtoC r) (cis ph)) = RtoC 0).
  { unfold Cdiv. replace (Cminus z z) with (RtoC 0) by ring. ring. }
  rewrite Q in T.
  assert (A : forall k, (k < n)%nat -> index_sample c n k <> to_complex center).
  { intros k _ Z. rewrite E in Z. apply T in Z. rewrite Cmult_0_l in Z. assert (Z' : RtoC 1 = RtoC 0) by (rewrite <- Z; ring). injection Z'. lra. }
  rewrite (index_ok _ _ _ A), E. f_equal. rewrite E in A.
  rewrite (csum_ext _ (fun k => Cmult Ci (RtoC (sin (2 * PI * IZR w / INR n))))).
  - rewrite csum_const, !Cmod_mult, !Cmod_R. assert (CI : Cmod Ci = 1).
    { unfold Cmod, Ci. cbn [fst snd]. replace (0 ^ 2 + 1 ^ 2) with 1 by ring. apply sqrt_1. }
    rewrite CI, (Rabs_right (INR n)) by lra. unfold Rdiv. ring.
  - intros k K. destruct (T k) as [_ T']. rewrite T' by (apply A, K). rewrite Cmult_0_l.
    replace (Cminus (RtoC 1) (RtoC 0)) with (RtoC 1) by ring.
    rewrite <- (Cmult_1_r (Cmult Ci _)) at 2. f_equal. field. intros Z. injection Z. lra.
Qed.

(** *** How far the value is from the number of turns *)
Lemma sin_lower x : Rabs x * (1 - x * x / 6) <= Rabs (sin x).
Proof.
  assert (P : forall y, 0 <= y -> y * (1 - y * y / 6) <= Rabs (sin y)).
  { intros y Y. destruct (Rle_dec y 3) as [L|L].
    - destruct (pre_sin_bound y 0 Y ltac:(lra)) as [B _]. unfold sin_approx, sin_term in B. cbn in B.
      eapply Rle_trans; [|apply Rle_abs]. eapply Rle_trans; [|exact B]. right. field.
    - pose proof (Rabs_pos (sin y)). assert (y * (1 - y * y / 6) <= 0); [|lra]. assert (9 < y * y) by nra. nra. }
  destruct (Rle_dec 0 x) as [L|L].
  - rewrite (Rabs_right x) by lra. apply P, L.
  - rewrite (Rabs_left x) by lra. replace (sin x) with (- sin (- x)) by (rewrite sin_neg; ring). rewrite Rabs_Ropp.
    replace (x * x) with (- x * - x) by ring. apply P. lra.
Qed.
Lemma turns_bound w n : (0 < n)%nat ->
  Rabs (IZR w) * (1 - (2 * PI * IZR w / INR n) * (2 * PI * IZR w / INR n) / 6) <= INR n * Rabs (sin (2 * PI * IZR w / INR n)) / (2 * PI) <= Rabs (IZR w).
Proof.
  intros N. assert (NP : 0 < INR n) by (apply lt_0_INR, N). pose proof PI_RGT_0 as PP.
  set (a := 2 * PI * IZR w / INR n). assert (A : Rabs a = 2 * PI / INR n * Rabs (IZR w)).
  { replace a with (2 * PI / INR n * IZR w) by (unfold a; field; lra). rewrite Rabs_mult, Rabs_right; [reflexivity|].
    apply Rle_ge, Rmult_le_pos; [lra|left; apply Rinv_0_lt_compat, NP]. }
  pose proof (sin_lower a) as L. pose proof (Rabs_sin_le a) as U. rewrite A in L, U.
  set (s := Rabs (sin a)) in *. set (m := Rabs (IZR w)) in *.
  assert (F : 0 < INR n / (2 * PI)) by (apply Rmult_lt_0_compat; [exact NP|apply Rinv_0_lt_compat; lra]).
  replace (INR n * s / (2 * PI)) with (INR n / (2 * PI) * s) by (field; lra).
  split.
  - apply (Rmult_le_compat_l (INR n / (2 * PI))) in L; [|lra]. eapply Rle_trans; [|exact L]. right. field. lra.
  - apply (Rmult_le_compat_l (INR n / (2 * PI))) in U; [|lra]. eapply Rle_trans; [exact U|]. right. field. lra.
Qed.

(** Own centre: the number of turns, up to a relative error of (2 pi w / n)^2 / 6. *)
Theorem C110_turns c z r ph w n center : runs_round c z r ph w -> (0 < n)%nat -> r <> 0 -> to_complex center = z ->
  exists x, curve_index c center n = Ok x /\
    Rabs (IZR w) * (1 - (2 * PI * IZR w / INR n) * (2 * PI * IZR w / INR n) / 6) <= x <= Rabs (IZR w).
Proof.
  intros H N R0 E. rewrite (C110_own_centre c z r ph w n center H N R0 E). eexists. split; [reflexivity|]. apply turns_bound, N.
Qed.

(** A centre at the distance [rho] radii from the circle's centre: inside the value is the number of turns, outside zero,
    up to terms in [rho ^ n]. *)
Theorem C110_inside_outside c z r ph w n center rho : runs_round c z r ph w -> (0 < n)%nat -> rel_prime w (Z.of_nat n) -> r <> 0 ->
  Cmod (Cminus (to_complex center) z) = rho * Rabs r ->
  let lo := Rabs (IZR w) * (1 - (2 * PI * IZR w / INR n) * (2 * PI * IZR w / INR n) / 6) in
  (rho < 1 -> exists x, curve_index c center n = Ok x /\ lo / (1 + rho ^ n) <= x <= Rabs (IZR w) / (1 - rho ^ n)) /\
  (1 < rho -> exists x, curve_index c center n = Ok x /\ 0 <= x <= Rabs (IZR w) / (rho ^ n - 1)).
Proof.
  intros H N RP R0 RH lo. pose proof (C110_circle c z r ph w n center H N RP R0) as K. cbv zeta in K.
  set (q := Cdiv _ _) in K. pose proof (Rabs_pos_lt r R0) as RP'. pose proof PI_RGT_0 as PP.
  assert (RC : RtoC r <> RtoC 0) by (intros E; apply R0; injection E; auto).
  assert (Q : Cmod q = rho).
  { unfold q. rewrite Cmod_div by (apply Cmult_neq_0; [exact RC|apply cis_nz]). rewrite Cmod_mult, cis_mod, Cmod_R, RH. field. lra. }
  assert (R1 : 0 <= rho) by (rewrite <- Q; apply Cmod_ge_0).
  assert (QN : Cmod (cpow q n) = rho ^ n) by (rewrite Cmod_cpow, Q; reflexivity).
  pose proof (turns_bound w n N) as TB. set (s := INR n * Rabs (sin (2 * PI * IZR w / INR n)) / (2 * PI)) in *. fold lo in TB.
  assert (S0 : 0 <= s).
  { unfold s. apply Rmult_le_pos; [apply Rmult_le_pos; [apply pos_INR|apply Rabs_pos]|left; apply Rinv_0_lt_compat; lra]. }
  assert (U : Cmod (Cminus (RtoC 1) (cpow q n)) <= 1 + rho ^ n).
  { eapply Rle_trans; [apply Cmod_triangle|]. rewrite Cmod_opp, QN, Cmod_1. lra. }
  assert (L1 : 1 - rho ^ n <= Cmod (Cminus (RtoC 1) (cpow q n))).
  { pose proof (Cmod_triangle (Cminus (RtoC 1) (cpow q n)) (cpow q n)) as T.
    replace (Cplus (Cminus (RtoC 1) (cpow q n)) (cpow q n)) with (RtoC 1) in T by ring. rewrite Cmod_1, QN in T. lra. }
  assert (L2 : rho ^ n - 1 <= Cmod (Cminus (RtoC 1) (cpow q n))).
  { pose proof (Cmod_triangle (RtoC 1) (Copp (Cminus (RtoC 1) (cpow q n)))) as T.
    replace (Cplus (RtoC 1) (Copp (Cminus (RtoC 1) (cpow q n)))) with (cpow q n) in T by ring. rewrite Cmod_1, QN, Cmod_opp in T. lra. }
  set (m := Cmod (Cminus (RtoC 1) (cpow q n))) in *.
  assert (NE : 0 < m -> curve_index c center n = Ok (s / m)).
  { intros M. destruct K as [_ K]. rewrite K.
    - f_equal. unfold s. fold m. field. lra.
    - intros E. unfold m in M. rewrite E in M. unfold Cminus in M. rewrite Cplus_opp_r, Cmod_0 in M. lra. }
  assert (DM : forall a b x, 0 < b -> b <= a -> 0 <= x -> x / a <= x / b).
  { intros a b x B AB X. apply Rmult_le_compat_l; [exact X|]. apply Rinv_le_contravar; lra. }
  assert (DL : forall a x y, 0 < a -> x <= y -> x / a <= y / a).
  { intros a x y A XY. apply Rmult_le_compat_r; [left; apply Rinv_0_lt_compat, A|exact XY]. }
  split; intros RR.
  - assert (PW : rho ^ n < 1).
    { destruct n as [|n]; [lia|]. apply (Rle_lt_trans _ (rho ^ 1)); [|lra]. cbn [pow]. pose proof (pow_le rho n R1).
      assert (rho ^ n <= 1) by (rewrite <- (pow1 n); apply pow_incr; lra). nra. }
    assert (M : 0 < m) by lra. exists (s / m). split; [apply NE, M|]. pose proof (pow_le rho n R1) as P0. split.
    + apply Rle_trans with (s / (1 + rho ^ n)); [apply DL; lra|apply DM; lra].
    + apply Rle_trans with (s / (1 - rho ^ n)); [apply DM; lra|apply DL; lra].
  - assert (PW : 1 < rho ^ n) by (apply Rlt_pow_R1; [exact RR|exact N]).
    assert (M : 0 < m) by lra. exists (s / m). split; [apply NE, M|]. split.
    + apply Rmult_le_pos; [exact S0|left; apply Rinv_0_lt_compat, M].
    + apply Rle_trans with (s / (rho ^ n - 1)); [apply DM; lra|apply DL; lra].
Qed.

(** Close to the curve the value is no winding number: it takes arbitrarily large values at points inside as well as
    outside a circle run round once. *)
Theorem C110_near_refuted c z r n : runs_round c z r 0 1 -> (2 < n)%nat -> 0 < r -> forall B,
  (exists center x, Cmod (Cminus (to_complex center) z) < r /\ curve_index c center n = Ok x /\ B < x) /\
  (exists center x, r < Cmod (Cminus (to_complex center) z) /\ curve_index c center n = Ok x /\ B < x).
Proof.
  intros H N RP B. pose proof PI_RGT_0 as PP. assert (NP : 2 < INR n) by (replace 2 with (INR 2) by (cbn; ring); apply lt_INR, N).
  set (a := 2 * PI * IZR 1 / INR n).
  assert (S : 0 < sin a).
  { apply sin_gt_0; unfold a.
    - apply Rmult_lt_0_compat; [lra|apply Rinv_0_lt_compat; lra].
    - apply (Rmult_lt_reg_r (INR n)); [lra|]. replace (2 * PI * 1 / INR n * INR n) with (2 * PI) by (field; lra). nra. }
  set (s := INR n * Rabs (sin a) / (2 * PI)).
  assert (SP : 0 < s).
  { unfold s. rewrite Rabs_right by lra. apply Rmult_lt_0_compat; [nra|apply Rinv_0_lt_compat; lra]. }
  set (e := Rmin (1 / 2) (s / (2 * (Rabs B + 1)))).
  assert (BP : 0 < Rabs B + 1) by (pose proof (Rabs_pos B); lra).
  assert (EP : 0 < e) by (unfold e; apply Rmin_pos; [lra|apply Rmult_lt_0_compat; [lra|apply Rinv_0_lt_compat; lra]]).
  assert (EH : e <= 1 / 2) by apply Rmin_l. assert (EB : e * (2 * (Rabs B + 1)) <= s).
  { apply Rle_trans with (s / (2 * (Rabs B + 1)) * (2 * (Rabs B + 1))); [apply Rmult_le_compat_r; [lra|apply Rmin_r]|right; field; lra]. }
  (* a real number whose nth power is y *)
  assert (RT : forall y, 0 < y -> exists x, 0 < x /\ x ^ n = y).
  { intros y Y. exists (exp (ln y / INR n)). split; [apply exp_pos|]. rewrite <- Rpower_pow by apply exp_pos. unfold Rpower.
    rewrite ln_exp. replace (INR n * (ln y / INR n)) with (ln y) by (field; lra). apply exp_ln, Y. }
  assert (IDX : forall x, 0 < x -> x ^ n <> 1 -> curve_index c (V (fst z + r * x) (snd z) 0) n = Ok (s / Rabs (1 - x ^ n)) /\
    Cmod (Cminus (to_complex (V (fst z + r * x) (snd z) 0)) z) = r * x).
  { intros x X NE.
    assert (D : Cminus (to_complex (V (fst z + r * x) (snd z) 0)) z = RtoC (r * x)).
    { destruct z as [z1 z2]. unfold to_complex, Cminus, Cplus, Copp, RtoC. cbn [fst snd vx vy]. f_equal; ring. }
    split; [|rewrite D, Cmod_R, Rabs_right; [reflexivity|nra]].
    pose proof (C110_circle c z r 0 1 n (V (fst z + r * x) (snd z) 0) H ltac:(lia)) as K. cbv zeta in K. rewrite D in K.
    replace (Cdiv (RtoC (r * x)) (Cmult (RtoC r) (cis 0))) with (RtoC x) in K.
    - assert (PW : cpow (RtoC x) n = RtoC (x ^ n)).
      { clear. induction n as [|n IH]; cbn [cpow pow]; [reflexivity|]. rewrite IH, RtoC_mult. reflexivity. }
      rewrite PW, <- RtoC_minus, Cmod_R in K. destruct K as [_ K].
      + apply Zgcd_1_rel_prime. apply Z.gcd_1_l.
      + lra.
      + rewrite K; [f_equal; unfold s, a; generalize (sin (2 * PI * 1 / INR n)); intros; field|].
        * split; [lra|apply Rabs_no_R0; intros Z; apply NE; lra].
        * intros E. apply NE. injection E. auto.
    - rewrite cis_0, RtoC_mult. assert (RtoC r <> RtoC 0) by (intros E; injection E; lra).
      assert (RtoC 1 <> RtoC 0) by (intros E; injection E; lra). field. auto. }
  assert (BIG : B < s / e).
  { apply (Rmult_lt_reg_r e); [exact EP|]. replace (s / e * e) with s by (field; lra). pose proof (Rle_abs B). nra. }
  split.
  - destruct (RT (1 - e) ltac:(lra)) as (x & X & XN). destruct (IDX x X ltac:(lra)) as [I D]. eexists _, _. split; [|split; [exact I|]].
    + rewrite D. assert (x < 1); [|nra]. destruct (Rlt_dec x 1) as [|G]; [assumption|]. exfalso.
      assert (1 <= x ^ n) by (apply pow_R1_Rle; lra). lra.
    + rewrite XN. replace (1 - (1 - e)) with e by ring. rewrite Rabs_right by lra. exact BIG.
  - destruct (RT (1 + e) ltac:(lra)) as (x & X & XN). destruct (IDX x X ltac:(lra)) as [I D]. eexists _, _. split; [|split; [exact I|]].
    + rewrite D. assert (1 < x); [|nra]. destruct (Rlt_dec 1 x) as [|G]; [assumption|]. exfalso.
      assert (x ^ n <= 1) by (rewrite <- (pow1 n); apply pow_incr; lra). lra.
    + rewrite XN. replace (1 - (1 + e)) with (- e) by ring. rewrite Rabs_Ropp, Rabs_right by lra. exact BIG.
Qed.

(** *** Symmetries *)

(** Moving, turning and scaling curve and centre together in the plane changes nothing; neither does mirroring. *)
Theorem C110_similarity c c' center center' a b n : a <> RtoC 0 ->
  (forall s, 0 <= s <= 1 -> to_complex (c_eval c' s) = Cplus (Cmult a (to_complex (c_eval c s))) b) ->
  to_complex center' = Cplus (Cmult a (to_complex center)) b -> (0 < n)%nat ->
  curve_index c' center' n = curve_index c center n.
Proof.
  intros A H HC N. assert (NP : 0 < INR n) by (apply lt_0_INR, N).
  assert (P : forall k, index_sample c' n k = Cplus (Cmult a (index_sample c n k)) b).
  { intros k. unfold index_sample. apply H. pose proof (Nat.mod_upper_bound k n ltac:(lia)) as B.
    split; [apply Rmult_le_pos; [apply pos_INR|left; apply Rinv_0_lt_compat, NP]|].
    apply (Rmult_le_reg_r (INR n)); [exact NP|]. replace (INR (k mod n) / INR n * INR n) with (INR (k mod n)) by (field; lra).
    rewrite Rmult_1_l. apply le_INR. lia. }
  assert (I : forall k, Cminus (index_sample c' n k) (to_complex center') = Cmult a (Cminus (index_sample c n k) (to_complex center)))
    by (intros k; rewrite P, HC; ring).
  destruct (index_cases c n (to_complex center)) as [G|(k & K & E)].
  - rewrite (index_ok c center n G), index_ok.
    + do 3 f_equal. apply csum_ext. intros k K. unfold index_term. rewrite I. unfold index_diff. rewrite !P.
      assert (NZ : Cminus (index_sample c n k) (to_complex center) <> RtoC 0) by apply Cminus_eq_contra, G, K.
      assert (T2 : RtoC 2 <> RtoC 0) by (intros E; injection E; lra). field. auto.
    + intros k K E. apply (G k K). assert (Z : Cmult a (Cminus (index_sample c n k) (to_complex center)) = RtoC 0) by (rewrite <- I, E; ring).
      destruct (Ceq_dec (Cminus (index_sample c n k) (to_complex center)) (RtoC 0)) as [E0|E0].
      * rewrite <- (Cplus_0_l (to_complex center)), <- E0. ring.
      * exfalso. apply (Cmult_neq_0 _ _ A E0 Z).
  - rewrite (index_err c center n k K E), (index_err c' center' n k K); [reflexivity|]. rewrite P, E, HC. reflexivity.
Qed.

(** Complex conjugation. Specification only. *)
Definition conj (z : C) : C := (fst z, - snd z).
Lemma conj_plus x y : conj (Cplus x y) = Cplus (conj x) (conj y).
Proof. unfold conj, Cplus. cbn [fst snd]. f_equal. ring. Qed.
Lemma conj_minus x y : conj (Cminus x y) = Cminus (conj x) (conj y).
Proof. unfold conj, Cminus, Cplus, Copp. cbn [fst snd]. f_equal. ring. Qed.
Lemma conj_mult x y : conj (Cmult x y) = Cmult (conj x) (conj y).
Proof. unfold conj, Cmult. cbn [fst snd]. f_equal; ring. Qed.
Lemma conj_inv x : conj (Cinv x) = Cinv (conj x).
Proof. unfold conj, Cinv. cbn [fst snd]. replace (fst x ^ 2 + (- snd x) ^ 2) with (fst x ^ 2 + snd x ^ 2) by ring. f_equal. unfold Rdiv. ring. Qed.
Lemma conj_inj x y : conj x = conj y -> x = y.
Proof. destruct x, y. unfold conj. cbn [fst snd]. intros E. injection E as -> E. f_equal. lra. Qed.
Lemma conj_mod x : Cmod (conj x) = Cmod x.
Proof. unfold Cmod, conj. cbn [fst snd]. f_equal. ring. Qed.
Lemma conj_csum f n : conj (csum f n) = csum (fun k => conj (f k)) n.
Proof. induction n as [|n IH]; cbn [csum]; [unfold conj, RtoC; cbn [fst snd]; f_equal; ring|]. rewrite conj_plus, IH. reflexivity. Qed.

Theorem C110_mirror c c' center center' n :
  (forall s, 0 <= s <= 1 -> to_complex (c_eval c' s) = conj (to_complex (c_eval c s))) ->
  to_complex center' = conj (to_complex center) -> (0 < n)%nat ->
  curve_index c' center' n = curve_index c center n.
Proof.
  intros H HC N. assert (NP : 0 < INR n) by (apply lt_0_INR, N).
  assert (P : forall k, index_sample c' n k = conj (index_sample c n k)).
  { intros k. unfold index_sample. apply H. pose proof (Nat.mod_upper_bound k n ltac:(lia)) as B.
    split; [apply Rmult_le_pos; [apply pos_INR|left; apply Rinv_0_lt_compat, NP]|].
    apply (Rmult_le_reg_r (INR n)); [exact NP|]. replace (INR (k mod n) / INR n * INR n) with (INR (k mod n)) by (field; lra).
    rewrite Rmult_1_l. apply le_INR. lia. }
  destruct (index_cases c n (to_complex center)) as [G|(k & K & E)].
  - rewrite (index_ok c center n G), index_ok.
    + do 2 f_equal. rewrite <- (conj_mod (csum (index_term (index_sample c n) n (to_complex center)) n)), conj_csum. apply (f_equal Cmod). apply csum_ext. intros k K. unfold index_term, index_diff.
      rewrite !P, HC. unfold Cdiv. rewrite !conj_mult, !conj_inv, !conj_minus.
      replace (conj (RtoC 2)) with (RtoC 2) by (unfold conj, RtoC; cbn [fst snd]; f_equal; ring). reflexivity.
    + intros k K E. apply (G k K), conj_inj. rewrite <- P, <- HC. exact E.
  - rewrite (index_err c center n k K E), (index_err c' center' n k K); [reflexivity|]. rewrite P, E, HC. reflexivity.
Qed.

(** A closed curve run backwards has the same index: the sense of rotation is lost. *)
Lemma csum_periodic t n : t n = t 0%nat -> csum (fun k => t (S k)) n = csum t n.
Proof.
  intros P. destruct n as [|n]; [reflexivity|]. cbn [csum]. rewrite P. pose proof (csum_first t n) as F. cbn [csum] in F. rewrite F. ring.
Qed.
Lemma sample_periodic c n k : (0 < n)%nat -> index_sample c n (k + n) = index_sample c n k.
Proof. intros N. unfold index_sample. replace (k + n)%nat with (k + 1 * n)%nat by lia. rewrite Nat.mod_add by lia. reflexivity. Qed.
Lemma sample_mod c n k : (0 < n)%nat -> index_sample c n (k mod n) = index_sample c n k.
Proof. intros N. unfold index_sample. rewrite Nat.mod_mod by lia. reflexivity. Qed.

Theorem C110_reversed c c' center n : (forall s, 0 <= s <= 1 -> to_complex (c_eval c' s) = to_complex (c_eval c (1 - s))) ->
  to_complex (c_eval c 0) = to_complex (c_eval c 1) -> (0 < n)%nat ->
  curve_index c' center n = curve_index c center n.
Proof.
  intros H HC N. assert (NP : 0 < INR n) by (apply lt_0_INR, N).
  assert (P : forall k, (k <= n)%nat -> index_sample c' n k = index_sample c n (n - k)).
  { intros k L. unfold index_sample. destruct (Nat.eq_dec k n) as [->|NE].
    - replace (n - n)%nat with 0%nat by lia. rewrite Nat.mod_same, Nat.mod_0_l by lia. cbn [INR]. unfold Rdiv. rewrite Rmult_0_l.
      rewrite H by lra. rewrite Rminus_0_r. symmetry. exact HC.
    - destruct (Nat.eq_dec k 0) as [->|K0].
      + rewrite Nat.mod_0_l by lia. replace (n - 0)%nat with n by lia. rewrite Nat.mod_same by lia. cbn [INR]. unfold Rdiv. rewrite Rmult_0_l.
        rewrite H by lra. rewrite Rminus_0_r. symmetry. exact HC.
      + rewrite !Nat.mod_small by lia. rewrite H.
        * f_equal. f_equal. rewrite minus_INR by lia. field. lra.
        * split; [apply Rmult_le_pos; [apply pos_INR|left; apply Rinv_0_lt_compat, NP]|].
          apply (Rmult_le_reg_r (INR n)); [exact NP|]. replace (INR k / INR n * INR n) with (INR k) by (field; lra).
          rewrite Rmult_1_l. apply le_INR. lia. }
  set (t := index_term (index_sample c n) n (to_complex center)).
  assert (T : forall k, (k < n)%nat -> index_sample c n (n - k) <> to_complex center ->
    index_term (index_sample c' n) n (to_complex center) k = Cmult (RtoC (-1)) (t (n - k)%nat)).
  { intros k L NE. unfold t, index_term, index_diff. rewrite (P (k + 1)%nat), (P k) by lia.
    assert (E1 : index_sample c' n (k + n - 1) = index_sample c n (n - k + 1)).
    { destruct k as [|k].
      - replace (0 + n - 1)%nat with (n - 1)%nat by lia. rewrite P by lia. replace (n - (n - 1))%nat with 1%nat by lia.
        replace (n - 0 + 1)%nat with (1 + n)%nat by lia. symmetry. apply sample_periodic, N.
      - replace (S k + n - 1)%nat with (k + n)%nat by lia. rewrite sample_periodic, P by lia. f_equal. lia. }
    rewrite E1. replace (n - (k + 1))%nat with (n - k - 1)%nat by lia.
    replace (n - k + n - 1)%nat with (n - k - 1 + n)%nat by lia. rewrite sample_periodic by lia.
    assert (NZ : Cminus (index_sample c n (n - k)) (to_complex center) <> RtoC 0) by apply Cminus_eq_contra, NE.
    assert (T2 : RtoC 2 <> RtoC 0) by (intros E; injection E; lra).
    replace (RtoC (-1)) with (Copp (RtoC 1)) by (unfold Copp, RtoC; cbn [fst snd]; f_equal; ring). field. auto. }
  destruct (index_cases c n (to_complex center)) as [G|(k & K & E)].
  - assert (G' : forall k, index_sample c n k <> to_complex center).
    { intros k. rewrite <- sample_mod by exact N. apply G, Nat.mod_upper_bound. lia. }
    rewrite (index_ok c center n G), index_ok.
    + do 2 f_equal. rewrite (csum_ext _ (fun k => Cmult (RtoC (-1)) (t (n - k)%nat))) by (intros k K; apply T; auto).
      rewrite csum_scale, Cmod_mult, Cmod_R, Rabs_left by lra. replace (- (-1)) with 1 by ring. rewrite Rmult_1_l. apply (f_equal Cmod).
      rewrite (csum_ext _ (fun k => (fun j => t (S j)) (n - 1 - k)%nat)) by (intros k K; f_equal; lia).
      rewrite (csum_rev (fun j => t (S j))). apply csum_periodic. unfold t, index_term, index_diff.
      replace (n + 1)%nat with (1 + n)%nat by lia. replace (n + n - 1)%nat with (n - 1 + n)%nat by lia.
      rewrite !sample_periodic by exact N. rewrite <- (sample_mod c n n N), Nat.mod_same by lia. cbn [Nat.add]. reflexivity.
    + intros k K. rewrite P by lia. apply G'.
  - rewrite (index_err c center n k K E). destruct (Nat.eq_dec k 0) as [->|K0].
    + apply (index_err c' center n 0 N). rewrite P by lia. replace (n - 0)%nat with (0 + n)%nat by lia. rewrite sample_periodic by exact N. exact E.
    + apply (index_err c' center n (n - k)%nat ltac:(lia)). rewrite P by lia. replace (n - (n - k))%nat with k by lia. exact E.
Qed.

(** *** Cases *)
Lemma arc_runs r (w : Z) ce yaw act : runs_round (arc_curve r (2 * PI * IZR w) ce yaw 0 0 act) (to_complex ce) r yaw w.
Proof.
  intros s _. unfold arc_curve. rewrite arc_new_eval. unfold to_complex, cis, Cplus, Cmult, RtoC. cbn [fst snd].
  rewrite cos_plus, sin_plus. generalize (2 * PI * IZR w * s). intros g.
  unfold euler_zyx, rotx, roty, rotz. rewrite cos_0, sin_0. destruct ce as [c1 c2 c3]. f_equal; vec_simpl; ring.
Qed.
Example C110_own_centre_example : curve_index (arc_curve 2 (2 * PI * 500) RIGHT 0 0 0 true) RIGHT 1000 = Ok 0.
Proof.
  rewrite (C110_own_centre _ (to_complex RIGHT) 2 0 500 1000 RIGHT); [|apply (arc_runs 2 500)|lia|lra|reflexivity].
  f_equal. replace (INR 1000) with 1000 by (rewrite INR_IZR_INZ; reflexivity). replace (2 * PI * 500 / 1000) with PI by field.
  rewrite sin_PI, Rabs_R0. unfold Rdiv. ring.
Qed.
Example C110_turns_example : exists x, curve_index (arc_curve 2 (2 * PI * 3) RIGHT 1 0 0 true) RIGHT 1000 = Ok x /\
  3 * (1 - (2 * PI * 3 / 1000) * (2 * PI * 3 / 1000) / 6) <= x <= 3.
Proof.
  destruct (C110_turns (arc_curve 2 (2 * PI * 3) RIGHT 1 0 0 true) (to_complex RIGHT) 2 1 3 1000 RIGHT) as (x & E & B);
    [apply (arc_runs 2 3)|lia|lra|reflexivity|]. exists x. split; [exact E|].
  rewrite (Rabs_right (IZR 3)) in B by lra. replace (INR 1000) with 1000 in B by (rewrite INR_IZR_INZ; reflexivity). exact B.
Qed.
Lemma round_once c : runs_round (arc_curve 2 (2 * PI * 1) c 0 0 0 true) (to_complex c) 2 0 1.
Proof. apply (arc_runs 2 1). Qed.
Example C110_circle_example : curve_index (arc_curve 2 (2 * PI * 1) ORIGIN 0 0 0 true) (V 2 0 0) 4 = Err ZeroDivisionError /\
  curve_index (arc_curve 2 (2 * PI * 1) ORIGIN 0 0 0 true) (V 1 0 0) 4 = Ok (32 / (15 * PI)).
Proof.
  assert (RP : rel_prime 1 (Z.of_nat 4)) by apply rel_prime_1.
  pose proof PI_RGT_0 as PP. assert (R2 : RtoC 2 <> RtoC 0) by (intros E; injection E; lra).
  assert (R1 : RtoC 1 <> RtoC 0) by (intros E; injection E; lra).
  split.
  - apply (C110_circle _ _ 2 0 1 4 _ (round_once ORIGIN) ltac:(lia) RP ltac:(lra)).
    replace (Cdiv _ _) with (RtoC 1); [apply cpow_one|]. rewrite cis_0.
    replace (Cminus (to_complex (V 2 0 0)) (to_complex ORIGIN)) with (RtoC 2)
      by (unfold to_complex, Cminus, Cplus, Copp, RtoC; cbn [vx vy ORIGIN fst snd]; f_equal; ring). field. auto.
  - destruct (C110_circle _ _ 2 0 1 4 (V 1 0 0) (round_once ORIGIN) ltac:(lia) RP ltac:(lra)) as [_ K].
    replace (Cdiv _ _) with (RtoC (/ 2)) in K.
    + assert (PW : cpow (RtoC (/ 2)) 4 = RtoC (1 / 16)) by (cbn [cpow]; rewrite <- !RtoC_mult; f_equal; field).
      rewrite PW, <- RtoC_minus, Cmod_R, (Rabs_right (1 - 1 / 16)) in K by lra. rewrite K.
      * f_equal. replace (2 * PI * IZR 1 / INR 4) with (PI / 2) by (cbn [INR]; field). rewrite sin_PI2, Rabs_R1. cbn [INR]. field. lra.
      * intros E. injection E. lra.
    + rewrite cis_0. replace (Cminus (to_complex (V 1 0 0)) (to_complex ORIGIN)) with (RtoC 1)
        by (unfold to_complex, Cminus, Cplus, Copp, RtoC; cbn [vx vy ORIGIN fst snd]; f_equal; ring).
      rewrite RtoC_inv by lra. field. auto.
Qed.
Example C110_inside_outside_example :
  (exists x, curve_index (arc_curve 2 (2 * PI * 1) ORIGIN 0 0 0 true) (V 1 0 0) 1000 = Ok x /\ x <= 1 / (1 - (1 / 2) ^ 1000)) /\
  (exists x, curve_index (arc_curve 2 (2 * PI * 1) ORIGIN 0 0 0 true) (V 4 0 0) 1000 = Ok x /\ x <= 1 / (2 ^ 1000 - 1)).
Proof.
  assert (RP : rel_prime 1 (Z.of_nat 1000)) by apply rel_prime_1. split.
  - destruct (C110_inside_outside _ _ 2 0 1 1000 (V 1 0 0) (1 / 2) (round_once ORIGIN) ltac:(lia) RP ltac:(lra)) as [K _].
    + replace (Cminus (to_complex (V 1 0 0)) (to_complex ORIGIN)) with (RtoC 1)
        by (unfold to_complex, Cminus, Cplus, Copp, RtoC; cbn [vx vy ORIGIN fst snd]; f_equal; ring).
      rewrite Cmod_R, !Rabs_right by lra. lra.
    + destruct K as (x & E & _ & B); [lra|]. exists x. split; [exact E|]. rewrite Rabs_right in B by lra. exact B.
  - destruct (C110_inside_outside _ _ 2 0 1 1000 (V 4 0 0) 2 (round_once ORIGIN) ltac:(lia) RP ltac:(lra)) as [_ K].
    + replace (Cminus (to_complex (V 4 0 0)) (to_complex ORIGIN)) with (RtoC 4)
        by (unfold to_complex, Cminus, Cplus, Copp, RtoC; cbn [vx vy ORIGIN fst snd]; f_equal; ring).
      rewrite Cmod_R, !Rabs_right by lra. lra.
    + destruct K as (x & E & _ & B); [lra|]. exists x. split; [exact E|]. rewrite Rabs_right in B by lra. exact B.
Qed.
Example C110_near_example : exists center x, Cmod (Cminus (to_complex center) (to_complex ORIGIN)) < 2 /\
  curve_index (arc_curve 2 (2 * PI * 1) ORIGIN 0 0 0 true) center 1000 = Ok x /\ 7 < x.
Proof. apply (C110_near_refuted _ _ 2 1000 (round_once ORIGIN) ltac:(lia) ltac:(lra) 7). Qed.
Example C110_similarity_example : curve_index (arc_curve 2 (2 * PI * 1) (V 5 6 7) 0 0 0 true) (V 6 6 0) 100 =
  curve_index (arc_curve 2 (2 * PI * 1) ORIGIN 0 0 0 true) (V 1 0 0) 100.
Proof.
  apply (C110_similarity _ _ _ _ (RtoC 1) (5, 6)); [intros E; injection E; lra| | |lia].
  - intros s S. rewrite (round_once ORIGIN s S), (round_once (V 5 6 7) s S). unfold to_complex, Cplus, Cmult, RtoC. cbn [vx vy ORIGIN fst snd]. f_equal; ring.
  - unfold to_complex, Cplus, Cmult, RtoC. cbn [vx vy fst snd]. f_equal; ring.
Qed.
Lemma arc_backwards s : 0 <= s <= 1 -> to_complex (c_eval (arc_curve 2 (2 * PI * (-1)) ORIGIN 0 0 0 true) s) =
  conj (to_complex (c_eval (arc_curve 2 (2 * PI * 1) ORIGIN 0 0 0 true) s)).
Proof.
  intros S. rewrite (round_once ORIGIN s S), (arc_runs 2 (-1) ORIGIN 0 true s S).
  unfold to_complex, Cplus, Cmult, RtoC, conj, cis. cbn [vx vy ORIGIN fst snd].
  replace (0 + 2 * PI * -1 * s) with (- (0 + 2 * PI * 1 * s)) by ring. rewrite cos_neg, sin_neg. f_equal; ring.
Qed.
Example C110_mirror_example : curve_index (arc_curve 2 (2 * PI * (-1)) ORIGIN 0 0 0 true) (V 1 (-1) 0) 100 =
  curve_index (arc_curve 2 (2 * PI * 1) ORIGIN 0 0 0 true) (V 1 1 0) 100.
Proof. apply C110_mirror; [apply arc_backwards|unfold conj, to_complex; cbn [vx vy fst snd]; f_equal; ring|lia]. Qed.
Example C110_reversed_example : curve_index (arc_curve 2 (2 * PI * (-1)) ORIGIN 0 0 0 true) (V 1 1 0) 100 =
  curve_index (arc_curve 2 (2 * PI * 1) ORIGIN 0 0 0 true) (V 1 1 0) 100.
Proof.
  apply C110_reversed; [| |lia].
  - intros s S. rewrite (round_once ORIGIN (1 - s)) by lra. rewrite (arc_runs 2 (-1) ORIGIN 0 true s S). f_equal. f_equal.
    rewrite <- (cis_period (0 + 2 * PI * -1 * s) 1). f_equal. ring.
  - rewrite !(round_once ORIGIN) by lra. f_equal. f_equal. rewrite <- (cis_period (0 + 2 * PI * 1 * 0) 1). f_equal. ring.
Qed.
