(** Lemmas on the assembled tooth profile: continuity of evaluation, freshness, trimming. *)
From Coq Require Import Reals List ZArith Lra Lia Psatz Bool.
From Verif Require Import Num Vec Transform TransformProps Params Coords CoordsProps Interp Curve CurveLem CurveProps
  ArcLem ArcProps Chain ChainLem ChainProps RefLines Profile.
Import ListNotations.
Open Scope R_scope.

(** ** Continuity of real functions *)
Definition rcont (f : R -> R) (x : R) : Prop :=
  forall eps, 0 < eps -> exists del, 0 < del /\ forall y, Rabs (y - x) < del -> Rabs (f y - f x) < eps.

Lemma rcont_ext f g x : (forall y, f y = g y) -> rcont f x -> rcont g x.
Proof.
  intros E H eps He. destruct (H eps He) as (d & Hd & D). exists d. split; [exact Hd|].
  intros y Hy. rewrite <- !E. apply D, Hy.
Qed.

Lemma rcont_affine a b x : rcont (fun y => a + b * y) x.
Proof.
  intros eps He. exists (eps / (Rabs b + 1)). pose proof (Rabs_pos b). split; [apply Rdiv_lt_0_compat; lra|].
  intros y Hy. replace (a + b * y - (a + b * x)) with (b * (y - x)) by ring. rewrite Rabs_mult.
  apply Rle_lt_trans with ((Rabs b + 1) * Rabs (y - x)).
  - apply Rmult_le_compat_r; [apply Rabs_pos|lra].
  - apply Rlt_le_trans with ((Rabs b + 1) * (eps / (Rabs b + 1))); [apply Rmult_lt_compat_l; lra|]. right. field. lra.
Qed.

Lemma rcont_paste f g a x : f a = g a -> (forall y, rcont f y) -> (forall y, rcont g y) ->
  rcont (fun y => if Rlt_dec y a then f y else g y) x.
Proof.
  intros E F G eps He. destruct (F x eps He) as (d1 & H1 & D1). destruct (G x eps He) as (d2 & H2 & D2).
  destruct (Rtotal_order x a) as [H|[H|H]].
  - exists (Rmin d1 (a - x)). split; [apply Rmin_pos; lra|]. intros y Hy.
    assert (Rabs (y - x) < d1 /\ Rabs (y - x) < a - x) as [K1 K2].
    { split; (eapply Rlt_le_trans; [exact Hy|]); [apply Rmin_l|apply Rmin_r]. }
    apply Rabs_def2 in K2. destruct (Rlt_dec y a), (Rlt_dec x a); try lra. apply D1, K1.
  - subst x. exists (Rmin d1 d2). split; [apply Rmin_pos; lra|]. intros y Hy.
    assert (Rabs (y - a) < d1 /\ Rabs (y - a) < d2) as [K1 K2].
    { split; (eapply Rlt_le_trans; [exact Hy|]); [apply Rmin_l|apply Rmin_r]. }
    destruct (Rlt_dec a a); [lra|]. destruct (Rlt_dec y a); [rewrite <- E; apply D1, K1|apply D2, K2].
  - exists (Rmin d2 (x - a)). split; [apply Rmin_pos; lra|]. intros y Hy.
    assert (Rabs (y - x) < d2 /\ Rabs (y - x) < x - a) as [K1 K2].
    { split; (eapply Rlt_le_trans; [exact Hy|]); [apply Rmin_l|apply Rmin_r]. }
    apply Rabs_def2 in K2. destruct (Rlt_dec y a), (Rlt_dec x a); try lra. apply D2, K1.
Qed.

(** Piecewise linear function through the table, its outer pieces prolonged. *)
Fixpoint plin (x : R) (xp fp : list R) : R :=
  match xp, fp with
  | x0 :: ((x1 :: r) as xs), y0 :: ((y1 :: _) as ys) =>
      match r with
      | [] => interpolate x x0 x1 y0 y1
      | _ => if Rlt_dec x x1 then interpolate x x0 x1 y0 y1 else plin x xs ys
      end
  | _, _ => 0
  end.

Lemma plin_cons3 x x0 x1 x2 r y0 y1 ys :
  plin x (x0 :: x1 :: x2 :: r) (y0 :: y1 :: ys) =
  if Rlt_dec x x1 then interpolate x x0 x1 y0 y1 else plin x (x1 :: x2 :: r) (y1 :: ys).
Proof. reflexivity. Qed.

Lemma interpolate_cont x0 x1 y0 y1 x : x0 <> x1 -> rcont (fun x => interpolate x x0 x1 y0 y1) x.
Proof.
  intros H. apply rcont_ext with (fun x => (y0 - (y1 - y0) * x0 / (x1 - x0)) + (y1 - y0) / (x1 - x0) * x).
  - intros y. unfold interpolate. field. lra.
  - apply rcont_affine.
Qed.

Lemma plin_at x0 xs y0 ys : length xs = length ys -> incr (x0 :: xs) -> xs <> [] -> plin x0 (x0 :: xs) (y0 :: ys) = y0.
Proof.
  intros L I N. destruct xs as [|x1 r]; [congruence|]. destruct ys as [|y1 ys]; [discriminate|].
  assert (H : x0 < x1) by (destruct I; assumption).
  destruct r; cbn; [|destruct (Rlt_dec x0 x1); [|lra]]; unfold interpolate; field; lra.
Qed.

Lemma plin_cont xp fp : length xp = length fp -> incr xp -> (2 <= length xp)%nat -> forall x, rcont (fun x => plin x xp fp) x.
Proof.
  revert fp. induction xp as [|x0 xs IH]; intros fp L I H x; [cbn in H; lia|].
  destruct fp as [|y0 ys]; [discriminate|]. destruct xs as [|x1 r]; [cbn in H; lia|].
  destruct ys as [|y1 ys]; [discriminate|].
  assert (H01 : x0 < x1) by (destruct I; assumption). assert (I' : incr (x1 :: r)) by (destruct I; assumption).
  destruct r as [|x2 r].
  - apply interpolate_cont. lra.
  - apply rcont_ext with (fun x => if Rlt_dec x x1 then interpolate x x0 x1 y0 y1 else plin x (x1 :: x2 :: r) (y1 :: ys)).
    + intros y. symmetry. apply plin_cons3.
    + apply rcont_paste.
      * rewrite plin_at; [unfold interpolate; field; lra|cbn in *; lia|exact I'|discriminate].
      * intros y. apply interpolate_cont. lra.
      * apply IH; [cbn in *; lia|exact I'|cbn; lia].
Qed.

Lemma plin_scan xp fp : length xp = length fp -> incr xp -> (2 <= length xp)%nat -> forall x,
  hd 0 xp <= x <= last xp 0 -> plin x xp fp = interp_scan x xp fp.
Proof.
  revert fp. induction xp as [|x0 xs IH]; intros fp L I H x B; [cbn in H; lia|].
  destruct fp as [|y0 ys]; [discriminate|]. destruct xs as [|x1 r]; [cbn in H; lia|].
  destruct ys as [|y1 ys]; [discriminate|].
  assert (H01 : x0 < x1) by (destruct I; assumption). assert (I' : incr (x1 :: r)) by (destruct I; assumption).
  rewrite scan_cons2. destruct r as [|x2 r].
  - cbn in B. destruct ys; [|discriminate]. cbn [plin interp_scan]. unfold interpolate.
    destruct (Rlt_dec x x1).
    + destruct (Req_EM_T x x0); [subst; field; lra|field; lra].
    + replace x with x1 by lra. field. lra.
  - rewrite plin_cons3. destruct (Rlt_dec x x1).
    + unfold interpolate. destruct (Req_EM_T x x0); [subst; field; lra|field; lra].
    + apply IH; [cbn in *; lia|exact I'|cbn; lia|]. change (last (x0 :: x1 :: x2 :: r) 0) with (last (x1 :: x2 :: r) 0) in B.
      cbn [hd]. lra.
Qed.

Lemma plin_below xp fp x : length xp = length fp -> incr xp -> (2 <= length xp)%nat -> x < hd 0 xp ->
  plin x xp fp = interpolate x (nth 0 xp 0) (nth 1 xp 0) (nth 0 fp 0) (nth 1 fp 0).
Proof.
  intros L I H B. destruct xp as [|x0 [|x1 r]]; cbn in H; try lia. destruct fp as [|y0 [|y1 ys]]; try discriminate.
  assert (H01 : x0 < x1) by (destruct I; assumption). cbn in B.
  destruct r as [|x2 r]; [reflexivity|]. rewrite plin_cons3. destruct (Rlt_dec x x1); [reflexivity|lra].
Qed.

Lemma plin_above xp fp x : length xp = length fp -> incr xp -> (2 <= length xp)%nat -> last xp 0 < x ->
  plin x xp fp = interpolate x (nth (length xp - 1) xp 0) (nth (length xp - 2) xp 0)
    (nth (length xp - 1) fp 0) (nth (length xp - 2) fp 0).
Proof.
  revert fp. induction xp as [|x0 xs IH]; intros fp L I H B; [cbn in H; lia|].
  destruct fp as [|y0 ys]; [discriminate|]. destruct xs as [|x1 r]; [cbn in H; lia|].
  destruct ys as [|y1 ys]; [discriminate|].
  assert (H01 : x0 < x1) by (destruct I; assumption). assert (I' : incr (x1 :: r)) by (destruct I; assumption).
  destruct r as [|x2 r].
  - cbn. unfold interpolate. field. lra.
  - rewrite plin_cons3. change (last (x0 :: x1 :: x2 :: r) 0) with (last (x1 :: x2 :: r) 0) in B.
    assert (x1 < last (x1 :: x2 :: r) 0).
    { rewrite last_nth. apply (incr_nth (x1 :: x2 :: r) 0); [exact I'|cbn; lia]. }
    destruct (Rlt_dec x x1); [lra|]. rewrite IH; [|cbn in *; lia|exact I'|cbn; lia|exact B].
    cbn [length]. replace (S (S (S (length r))) - 1)%nat with (S (S (S (length r)) - 1 - 0))%nat by lia.
    replace (S (S (S (length r))) - 2)%nat with (S (S (S (length r)) - 2))%nat by lia.
    rewrite Nat.sub_0_r. reflexivity.
Qed.

Lemma s2t_plin c s : fresh c -> (2 <= c_ndiv c)%nat -> incr (c_ss c) -> s2t c s = plin s (c_ss c) (c_ts c).
Proof.
  intros F H I. pose proof (fresh_tab c F H) as T. pose proof (tab_len _ _ _ _ _ T) as L.
  pose proof (tab_two _ _ _ _ _ T) as L2. pose proof (tab_s0 _ _ _ _ _ T) as S0. pose proof (tab_s1 _ _ _ _ _ T) as S1.
  unfold s2t. destruct (Rlt_dec s 0).
  - rewrite plin_below; auto. rewrite S0. lra.
  - destruct (Rlt_dec 1 s).
    + rewrite plin_above; auto. rewrite S1. lra.
    + rewrite np_interp_in by lra. symmetry. apply plin_scan; auto. lra.
Qed.

Lemma s2t_cont c : fresh c -> (2 <= c_ndiv c)%nat -> incr (c_ss c) -> forall x, rcont (s2t c) x.
Proof.
  intros F H I x. apply rcont_ext with (fun s => plin s (c_ss c) (c_ts c)).
  - intros s. symmetry. apply s2t_plin; assumption.
  - pose proof (fresh_tab c F H) as T. apply plin_cont; [apply T|exact I|apply T].
Qed.

Lemma vcont_comp f g x : vcont f (g x) -> rcont g x -> vcont (fun y => f (g y)) x.
Proof.
  intros F G eps He. destruct (F eps He) as (d & Hd & D). destruct (G d Hd) as (e & Hk & E).
  exists e. split; [exact Hk|]. intros y Hy. apply D, E, Hy.
Qed.

(** A map that does not increase distances keeps continuity. *)
Lemma vcont_map (h : vec -> vec) f k x : 0 <= k -> (forall p q, norm (vsub (h p) (h q)) <= k * norm (vsub p q)) ->
  vcont f x -> vcont (fun y => h (f y)) x.
Proof.
  intros K H F eps He. destruct (F (eps / (k + 1))) as (d & Hd & D); [apply Rdiv_lt_0_compat; lra|].
  exists d. split; [exact Hd|]. intros y Hy. eapply Rle_lt_trans; [apply H|].
  specialize (D y Hy). apply Rle_lt_trans with ((k + 1) * norm (vsub (f y) (f x))).
  - apply Rmult_le_compat_r; [apply norm_nonneg|lra].
  - apply Rlt_le_trans with ((k + 1) * (eps / (k + 1))); [apply Rmult_lt_compat_l; lra|]. right. field. lra.
Qed.

Lemma eval_cont c : fresh c -> (2 <= c_ndiv c)%nat -> incr (c_ss c) -> (forall t, vcont (c_fun c) t) ->
  forall s, vcont (c_eval c) s.
Proof. intros F H I C s. apply (vcont_comp (c_fun c) (s2t c)); [apply C|apply s2t_cont; assumption]. Qed.

(** ** Refreshing *)
Lemma update_active n : n_active (n_update n) = n_active n.
Proof.
  induction n as [c|a l IH] using node_rect'; cbn; [apply update_act|]. f_equal.
  induction IH as [|m l Hm HF IHl]; cbn; [reflexivity|]. rewrite IHl. f_equal.
  destruct (n_active m) eqn:E; [rewrite Hm|]; congruence.
Qed.

Lemma refresh_active n : n_active (refresh n) = n_active n.
Proof. unfold refresh. destruct (n_active n) eqn:E; [rewrite update_active|]; exact E. Qed.

Lemma refresh_fresh_of n : (n_active n = true -> Forall fresh (leaves (n_update n))) -> Forall fresh (leaves (refresh n)).
Proof.
  intros H. unfold refresh. destruct (n_active n) eqn:E; [apply H; reflexivity|].
  apply inactive_leaves in E. rewrite E. constructor.
Qed.

Lemma update_leaves_fresh n : Forall fresh (leaves (n_update n)).
Proof.
  induction n as [c|a l IH] using node_rect'.
  - cbn. destruct (c_act (update_lengths c)); constructor; [apply update_fresh|constructor].
  - change (n_update (Chain a l)) with (Chain a (map refresh l)). cbn [leaves]. destruct a; [|constructor].
    induction IH as [|m l Hm HF IHl]; cbn [map flat_map]; [constructor|].
    apply Forall_app. split; [|exact IHl]. apply refresh_fresh_of. intros _. exact Hm.
Qed.

Lemma refresh_leaves_fresh n : Forall fresh (leaves (refresh n)).
Proof. apply refresh_fresh_of. intros _. apply update_leaves_fresh. Qed.

Lemma refresh_map_fresh l : Forall fresh (leaves_of (map refresh l)).
Proof. induction l as [|m l IH]; cbn; [constructor|]. apply Forall_app. split; [apply refresh_leaves_fresh|exact IH]. Qed.

Lemma set_end_leaves_fresh n s m : n_set_end false n s = Ok m -> Forall fresh (leaves m).
Proof.
  destruct n as [c|a l]; cbn.
  - intros E. injection E as <-. cbn. destruct (c_act _); constructor; [apply update_fresh|constructor].
  - destruct (get_s_index l s) as [[i u]|e]; [cbn|discriminate].
    destruct (nth i (map (n_set_end false) l) (fun _ => Err IndexError) u) as [m'|e]; [cbn|discriminate].
    intros E. injection E as <-. cbn [leaves]. destruct a; [|constructor]. apply refresh_map_fresh.
Qed.

Lemma set_start_leaves_fresh n s m : n_set_start false n s = Ok m -> Forall fresh (leaves m).
Proof.
  destruct n as [c|a l]; cbn.
  - intros E. injection E as <-. cbn. destruct (c_act _); constructor; [apply update_fresh|constructor].
  - destruct (get_s_index l s) as [[i u]|e]; [cbn|discriminate].
    destruct (nth i (map (n_set_start false) l) (fun _ => Err IndexError) u) as [m'|e]; [cbn|discriminate].
    intros E. injection E as <-. cbn [leaves]. destruct a; [|constructor]. apply (refresh_map_fresh (m' :: match l with [] => [] | _ :: l0 => skipn i l0 end)).
Qed.

Lemma trim_leaves_fresh sv tooth rc tipf rootf pitch t : Forall fresh (leaves tooth) ->
  trim_flank sv tooth rc tipf rootf pitch = Ok t -> Forall fresh (leaves t).
Proof.
  intros F. unfold trim_flank, trim_tip.
  assert (R : forall u, Forall fresh (leaves u) -> trim_root sv u (rc_d rc) rootf pitch = Ok t -> Forall fresh (leaves t)).
  { intros u Fu. unfold trim_root. destruct (Rlt_dec 0 rootf); [intros E; injection E as <-; exact Fu|].
    destruct (sv_meet sv EQUALITY u (rc_d rc) (3 / 10) _) as [[ok1 a0] a1].
    destruct (n_eval u a0) as [pa|]; [cbn [bind]|discriminate].
    destruct (sv_meet sv MINDISTANCE u (rc_d rc) 0 _) as [[ok2 b0] b1].
    destruct (if ok1 then _ else _) as [ok x0].
    destruct (n_eval u x0) as [p|]; [cbn [bind]|discriminate].
    destruct (_ && _); apply set_start_leaves_fresh. }
  destruct (Rlt_dec 0 tipf); [cbn [bind]; apply R, F|].
  destruct (if fst (fst (sv_meet sv EQUALITY tooth (rc_a rc) (9 / 10) _)) then _ else _) as [[ok x0] x1].
  destruct (n_eval tooth x0) as [p|]; [cbn [bind]|discriminate].
  destruct (_ && _).
  - destruct (n_set_end false tooth x0) as [u|] eqn:E; [cbn [bind]|discriminate]. apply R. eapply set_end_leaves_fresh, E.
  - destruct (n_set_end false tooth _) as [u|] eqn:E; [cbn [bind]|discriminate]. apply R. eapply set_end_leaves_fresh, E.
Qed.
