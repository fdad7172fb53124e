(** Property C114: the fillets of a rack. *)
From Coq Require Import Nsatz Reals Lra Psatz Lia List ZArith Permutation Sorted.
From Verif Require Import Num Vec Transform TransformProps Params Coords Curve ArcLem GearMath Tooth Wrapper GearLem MeshAngleProps MeshLem
  MeshNormal MeshConj MeshProps MeshDistProps MeshContactProps Info InfoProps HelicalProps CrownProps Rack RackProps Build BuildProps RackFillet.
Import ListNotations.
Open Scope R_scope.

(** ** Specification *)

(** Half the thickness of the sharp tooth at the level [x] above the reference line (module 1). *)
Definition half_tooth (r : rack) (x : R) : R := PI / 4 - tan (rk_alpha r) * x - rk_backlash r.
Definition half_tip (r : rack) : R := half_tooth r (rk_add r).
Definition half_foot (r : rack) : R := half_tooth r (- rk_ded r).
(** The lower flank at the level [x]. *)
Definition flank_point (r : rack) (x : R) : vec := V x (- half_tooth r x) 0.
(** How far a fillet reaches: along the land, and in height along the flank. *)
Definition reach_land (r : rack) (rad : R) : R := rad * (1 - sin (rk_alpha r)) / cos (rk_alpha r).
Definition reach_up (r : rack) (rad : R) : R := rad * (1 - sin (rk_alpha r)).
Definition flank_top (r : rack) (tip : R) : R := rk_add r - reach_up r tip.
Definition flank_bottom (r : rack) (root : R) : R := - rk_ded r + reach_up r root.

(** The rounded outline, corner by corner. *)
Definition tip_side (r : rack) (tip : R) : list piece :=
  let y := - half_tip r + reach_land r tip in
  if Rlt_dec 0 tip then [Seg (V (rk_add r) 0 0) (V (rk_add r) y 0); Bow (V (rk_add r - tip) y 0) (V (rk_add r) y 0) (flank_point r (flank_top r tip))]
  else [Seg (V (rk_add r) 0 0) (flank_point r (flank_top r tip))].
Definition root_side (r : rack) (root : R) : list piece :=
  let y := - half_foot r - reach_land r root in let e := V (- rk_ded r) (- (PI / 2)) 0 in
  if Rlt_dec 0 root then [Bow (V (- rk_ded r + root) y 0) (flank_point r (flank_bottom r root)) (V (- rk_ded r) y 0); Seg (V (- rk_ded r) y 0) e]
  else [Seg (flank_point r (flank_bottom r root)) e].
Definition rounded (r : rack) (tip root : R) : list piece :=
  tip_side r tip ++ Seg (flank_point r (flank_top r tip)) (flank_point r (flank_bottom r root)) :: root_side r root.

(** There is room for the fillets. *)
Definition room (r : rack) (tip root : R) : Prop :=
  (0 < tip -> reach_land r tip <= half_tip r) /\ (0 < root -> reach_land r root <= PI / 2 - half_foot r) /\
  reach_up r tip + reach_up r root <= rk_add r + rk_ded r.
(** A usable tooth: flanks leaning inwards, some height, the foot thicker than nothing and the tip narrower than the pitch. *)
Record usable_rack (r : rack) : Prop := {
  ur_alpha : 0 < rk_alpha r < PI / 2;
  ur_height : 0 < rk_add r + rk_ded r;
  ur_foot : 0 < half_foot r;
  ur_tip : half_tip r < PI / 2 }.

(** Points of an edge. *)
Definition on_piece (x : piece) (p : vec) : Prop :=
  match x with
  | Seg a b => exists s, 0 <= s <= 1 /\ p = vadd a (smul s (vsub b a))
  | Bow c a b => norm (vsub p c) = norm (vsub a c) /\ exists l m, 0 <= l /\ 0 <= m /\ vsub p c = vadd (smul l (vsub a c)) (smul m (vsub b c))
  end.

(** ** Sorting *)
Definition low (p q : vec) : Prop := vy p < vy q \/ p = q.
Lemma low_le p q : low p q -> vy p <= vy q.
Proof. intros [H|H]; [lra|subst; lra]. Qed.

Lemma strongly s : Sorted (fun p q : vec => vy p <= vy q) s -> StronglySorted (fun p q : vec => vy p <= vy q) s.
Proof. apply Sorted_StronglySorted. intros a b c; lra. Qed.
Lemma by_y_unique s0 : forall l s, StronglySorted low s0 -> by_y l s -> Permutation l s0 -> s = s0.
Proof.
  intros l s S0 (P & S) Q. assert (P' : Permutation s0 s) by (etransitivity; [symmetry; exact Q|exact P]). clear l P Q.
  apply strongly in S. revert s S P'. induction S0 as [|x s0 S0 IH F]; intros s S P.
  - apply Permutation_nil in P. exact P.
  - destruct s as [|y s]; [apply Permutation_sym, Permutation_nil in P; discriminate|].
    inversion S as [|y' s' S1 F1]; subst.
    assert (E : y = x).
    { assert (I1 : In y (x :: s0)) by (apply (Permutation_in _ (Permutation_sym P)); left; reflexivity).
      assert (I2 : In x (y :: s)) by (apply (Permutation_in _ P); left; reflexivity).
      destruct I1 as [I1|I1]; [symmetry; exact I1|]. destruct I2 as [I2|I2]; [exact I2|].
      rewrite List.Forall_forall in F, F1. specialize (F _ I1). specialize (F1 _ I2). destruct F as [F|F]; [lra|symmetry; exact F]. }
    subst y. f_equal. apply IH; [exact S1|]. exact (Permutation_cons_inv P).
Qed.
Lemma by_y_exists s0 l : StronglySorted low s0 -> Permutation l s0 -> by_y l s0.
Proof.
  intros S P. split; [exact P|]. clear P. apply StronglySorted_Sorted. induction S as [|x s S IH F]; constructor.
  - exact IH.
  - revert F. apply List.Forall_impl. intros q H. exact (low_le _ _ H).
Qed.

(** ** The arc in a corner *)
Lemma norm_sq v r : norm v = r -> dot v v = r * r.
Proof. intros <-. unfold norm. rewrite sqrt_sqrt; [reflexivity|apply dot_nonneg]. Qed.
Lemma norm_of v r : 0 <= r -> dot v v = r * r -> norm v = r.
Proof. intros H E. unfold norm. rewrite E. apply sqrt_square, H. Qed.

(** In the frame of the corner: one edge goes up by [A], the other one down and back by [H]. *)
Lemma corner_solve A H s c rad la mu x y :
  0 < A -> 0 < H -> 0 < c -> s * s + c * c = 1 -> 0 < s -> 0 < rad -> 0 <= la <= 1 -> 0 <= mu <= 1 ->
  let L := la * A in let K := mu * (H / c) in
  (0 - x) * 0 + (L - y) * A = 0 ->
  (0 - x) * (0 - x) + (L - y) * (L - y) = rad * rad ->
  (- K * c - x) * (- K * c - x) + (- K * s - y) * (- K * s - y) = rad * rad ->
  (- K * c - x) * (- (H / c) * c) + (- K * s - y) * (- (H / c) * s) = 0 ->
  L = rad * (1 - s) / c /\ K * c = rad * (1 - s) /\ x = - rad /\ y = L.
Proof.
  intros HA HH C1 SC S0 R0 (L0 & L1) (M0 & M1) L K E1 E2 E3 E4.
  assert (HC : 0 < H / c) by (apply Rdiv_lt_0_compat; lra).
  assert (LP : 0 <= L) by (unfold L; apply Rmult_le_pos; lra).
  assert (KP : 0 <= K) by (unfold K; apply Rmult_le_pos; lra).
  assert (Y : y = L). { assert ((L - y) * A = 0) by lra. apply Rmult_integral in H0. lra. } subst y.
  assert (E5 : K + x * c + L * s = 0).
  { apply (Rmult_eq_reg_l (H / c)); [|lra]. rewrite Rmult_0_r. rewrite <- E4. 
    replace ((- K * c - x) * (- (H / c) * c) + (- K * s - L) * (- (H / c) * s)) with ((H / c) * (K * (s * s + c * c) + x * c + L * s)) by ring.
    rewrite SC. ring. }
  assert (X2 : x * x = rad * rad) by (rewrite <- E2; ring).
  assert (XN : x <= 0).
  { destruct (Rle_lt_dec x 0) as [D|D]; [exact D|]. pose proof (Rmult_lt_0_compat _ _ D C1). pose proof (Rmult_le_pos _ _ LP (Rlt_le _ _ S0)). lra. }
  assert (XE : x = - rad). { assert (Q : (x + rad) * (x - rad) = 0) by lra. apply Rmult_integral in Q. lra. } subst x.
  assert (KL : K * K = L * L).
  { assert (E6 : K * K * (s * s + c * c) + 2 * K * (- rad * c + L * s) + (L * L + rad * rad) = rad * rad) by (etransitivity; [|exact E3]; ring).
    rewrite SC in E6. replace (- rad * c + L * s) with (- K) in E6 by lra. lra. }
  assert (KE : K = L). { assert (Q : (K + L) * (K - L) = 0) by lra. apply Rmult_integral in Q. lra. }
  rewrite KE in *. assert (E7 : L * (1 + s) = rad * c) by lra.
  assert (E8 : L * c = rad * (1 - s)).
  { apply (Rmult_eq_reg_r (1 + s)); [|lra]. replace (L * c * (1 + s)) with (L * (1 + s) * c) by ring. rewrite E7.
    replace (rad * (1 - s) * (1 + s)) with (rad * (1 - s * s)) by ring. rewrite <- SC. ring. }
  split; [|split; [exact E8|split; reflexivity]]. rewrite <- E8. field. lra.
Qed.

Section Corner.
Variables (al : R).
Hypothesis AL : 0 < al < PI / 2.
Lemma al_cos : 0 < cos al. Proof. apply cos_gt_0; lra. Qed.
Lemma al_sin : 0 < sin al. Proof. apply sin_gt_0; lra. Qed.
Lemma al_sin1 : sin al < 1. Proof. rewrite <- sin_PI2. apply sin_increasing_1; lra. Qed.
Lemma al_one : sin al * sin al + cos al * cos al = 1.
Proof. pose proof (sin2_cos2 al) as Q. unfold Rsqr in Q. exact Q. Qed.

Lemma corner_tip rad A H e f t c t' : 0 < rad -> 0 < A -> 0 < H ->
  (tangent_arc rad (V e (f + A) 0) (V e f 0) (V (e - H) (f - H * tan al) 0) t c t' <->
   rad * (1 - sin al) / cos al <= A /\ rad * (1 - sin al) <= H /\
   t = V e (f + rad * (1 - sin al) / cos al) 0 /\ c = V (e - rad) (f + rad * (1 - sin al) / cos al) 0 /\
   t' = V (e - rad * (1 - sin al)) (f - rad * (1 - sin al) * tan al) 0).
Proof.
  intros R0 HA HH. pose proof al_cos as C1. pose proof al_sin as S0. pose proof al_one as SC. pose proof al_sin1 as S1.
  unfold tan. set (s := sin al) in *. set (co := cos al) in *. split.
  - intros (_ & _ & (la & LA & ->) & (mu & MU & ->) & N1 & N2 & D1 & D2 & CZ).
    apply norm_sq in N1. apply norm_sq in N2. destruct c as [cx cy cz]. cbn [vz] in CZ. subst cz. vec_simpl.
    destruct (corner_solve A H s co rad la mu (cx - e) (cy - f)) as (E1 & E2 & E3 & E4); try assumption.
    + etransitivity; [|exact D1]. ring.
    + etransitivity; [|exact N1]. ring.
    + etransitivity; [|exact N2]. field. lra.
    + etransitivity; [|exact D2]. field. lra.
    + assert (E2' : mu * H = rad * (1 - s)) by (rewrite <- E2; field; lra).
      split; [rewrite <- E1; pose proof (Rmult_le_compat_r A la 1 ltac:(lra) ltac:(lra)); lra|].
      split; [rewrite <- E2'; pose proof (Rmult_le_compat_r H mu 1 ltac:(lra) ltac:(lra)); lra|].
      rewrite <- E1, <- E2'. split; [apply vec_eq; cbn [vx vy vz]; lra|]. split; [apply vec_eq; cbn [vx vy vz]; lra|].
      apply vec_eq; cbn [vx vy vz]; try lra.
  - intros (B1 & B2 & -> & -> & ->). set (L := rad * (1 - s) / co) in *.
    assert (LC : L * co = rad * (1 - s)) by (unfold L; field; lra).
    assert (LP : 0 < L) by (apply Rdiv_lt_0_compat; [apply Rmult_lt_0_compat; lra|lra]).
    assert (EL : L * (1 + s) = rad * co).
    { apply (Rmult_eq_reg_r co); [|lra]. replace (L * (1 + s) * co) with (L * co * (1 + s)) by ring. rewrite LC.
      replace (rad * (1 - s) * (1 + s)) with (rad * (1 - s * s)) by ring. rewrite <- SC. ring. }
    rewrite <- LC in *. assert (PH : 0 < L * co) by (apply Rmult_lt_0_compat; lra).
    unfold tangent_arc. split; [intros E; apply (f_equal vy) in E; cbn in E; lra|].
    split; [intros E; apply (f_equal vx) in E; cbn in E; lra|].
    split. { exists (L / A). split. split; [apply Rlt_le, Rdiv_lt_0_compat; lra|apply Rmult_le_reg_r with A; [lra|unfold Rdiv; rewrite Rmult_assoc, Rinv_l; lra]].
      apply vec_eq; vec_simpl; field; lra. }
    split. { exists (L * co / H). split. split; [apply Rlt_le, Rdiv_lt_0_compat; lra|apply Rmult_le_reg_r with H; [lra|unfold Rdiv; rewrite (Rmult_assoc (L * co)), Rinv_l; lra]].
      apply vec_eq; vec_simpl; field; lra. }
    split; [apply norm_of; [lra|vec_simpl; ring]|].
    assert (TS : L * co * (s / co) = L * s) by (field; lra).
    split. { apply norm_of; [lra|]. vec_simpl. rewrite TS.
      replace ((e - L * co - (e - rad)) * (e - L * co - (e - rad)) + (f - L * s - (f + L)) * (f - L * s - (f + L)) + (0 - 0) * (0 - 0))
        with ((rad - L * co) * (rad - L * co) + L * (1 + s) * (L * (1 + s))) by ring.
      rewrite EL, LC. transitivity (rad * rad * (s * s + co * co)); [ring|rewrite SC; ring]. }
    split; [vec_simpl; ring|]. split; [|reflexivity]. vec_simpl. rewrite TS.
    replace ((e - L * co - (e - rad)) * (e - H - e) + (f - L * s - (f + L)) * (f - H * (s / co) - f) + (0 - 0) * (0 - 0))
      with (- H * (rad - L * co) + H / co * s * (L * (1 + s))) by (field; lra).
    rewrite EL, LC. field. lra.
Qed.

Lemma tangent_arc_swap rad p v q t c t' : tangent_arc rad p v q t c t' -> tangent_arc rad q v p t' c t.
Proof. unfold tangent_arc. tauto. Qed.
Lemma opp_opp v : vopp (vopp v) = v. Proof. vec_ring. Qed.
Lemma vopp_inj p q : vopp p = vopp q -> p = q.
Proof. intros E. rewrite <- (opp_opp p), E. apply opp_opp. Qed.
Lemma tangent_arc_opp rad p v q t c t' : tangent_arc rad p v q t c t' ->
  tangent_arc rad (vopp p) (vopp v) (vopp q) (vopp t) (vopp c) (vopp t').
Proof.
  intros (N1 & N2 & (s & Hs & ->) & (s' & Hs' & ->) & A & B & C & D & E). unfold tangent_arc.
  assert (Q : forall a b, vsub (vopp a) (vopp b) = vopp (vsub a b)) by (intros; vec_ring).
  assert (NO : forall a, norm (vopp a) = norm a) by (intros; unfold norm; f_equal; vec_simpl; ring).
  rewrite !Q, !NO. split; [intros X; apply N1, vopp_inj, X|]. split; [intros X; apply N2, vopp_inj, X|].
  split; [exists s; split; [exact Hs|vec_ring]|]. split; [exists s'; split; [exact Hs'|vec_ring]|].
  split; [exact A|]. split; [exact B|]. split; [rewrite <- C; vec_simpl; ring|]. split; [rewrite <- D; vec_simpl; ring|].
  destruct c, v. cbn in *. lra.
Qed.

Lemma corner_root rad B H e f t c t' : 0 < rad -> 0 < B -> 0 < H ->
  (tangent_arc rad (V (e + H) (f + H * tan al) 0) (V e f 0) (V e (f - B) 0) t c t' <->
   rad * (1 - sin al) / cos al <= B /\ rad * (1 - sin al) <= H /\
   t = V (e + rad * (1 - sin al)) (f + rad * (1 - sin al) * tan al) 0 /\
   c = V (e + rad) (f - rad * (1 - sin al) / cos al) 0 /\ t' = V e (f - rad * (1 - sin al) / cos al) 0).
Proof.
  intros R0 HB HH. pose proof (corner_tip rad B H (- e) (- f) (vopp t') (vopp c) (vopp t) R0 HB HH) as K.
  assert (E1 : vopp (V (e + H) (f + H * tan al) 0) = V (- e - H) (- f - H * tan al) 0) by vec_ring.
  assert (E2 : vopp (V e f 0) = V (- e) (- f) 0) by vec_ring.
  assert (E3 : vopp (V e (f - B) 0) = V (- e) (- f + B) 0) by vec_ring.
  rewrite <- E1, <- E2, <- E3 in K.
  split.
  - intros T. apply tangent_arc_opp, tangent_arc_swap in T. apply (proj1 K) in T. destruct T as (B1 & B2 & T1 & T2 & T3).
    split; [exact B1|]. split; [exact B2|].
    split; [apply vopp_inj; rewrite T3; vec_ring|]. split; [apply vopp_inj; rewrite T2; vec_ring|]. apply vopp_inj; rewrite T1; vec_ring.
  - intros (B1 & B2 & T1 & T2 & T3).
    assert (T : tangent_arc rad (vopp (V e (f - B) 0)) (vopp (V e f 0)) (vopp (V (e + H) (f + H * tan al) 0)) (vopp t') (vopp c) (vopp t)).
    { apply (proj2 K). split; [exact B1|]. split; [exact B2|]. rewrite T1, T2, T3. split; [vec_ring|split; vec_ring]. }
    apply tangent_arc_opp, tangent_arc_swap in T. rewrite !opp_opp in T. exact T.
Qed.
End Corner.

(** ** The outline *)
Lemma pt_a0 r : rk_pt_a0 r = V (rk_add r) 0 0.
Proof. unfold rk_pt_a0. vec_ring. Qed.
Lemma pt_a r : rk_pt_a r = flank_point r (rk_add r).
Proof. unfold rk_pt_a, flank_point, half_tooth, rk_pitch. vec_ring. Qed.
Lemma pt_d r : rk_pt_d r = flank_point r (- rk_ded r).
Proof. unfold rk_pt_d, flank_point, half_tooth, rk_pitch. vec_ring. Qed.
Lemma pt_c r : rk_pt_c r = V (- rk_ded r) (- (PI / 2)) 0.
Proof. unfold rk_pt_c, rk_pitch. vec_ring. Qed.
Lemma foot_tip r : half_foot r = half_tip r + (rk_add r + rk_ded r) * tan (rk_alpha r).
Proof. unfold half_foot, half_tip, half_tooth. ring. Qed.
Lemma half_at r x : half_tooth r x = half_tip r + (rk_add r - x) * tan (rk_alpha r).
Proof. unfold half_tip, half_tooth. ring. Qed.
Lemma half_at' r x : half_tooth r x = half_foot r - (rk_ded r + x) * tan (rk_alpha r).
Proof. unfold half_foot, half_tooth. ring. Qed.

Lemma usable_tan r : usable_rack r -> 0 < tan (rk_alpha r).
Proof. intros [A _ _ _]. apply tan_gt_0; lra. Qed.
Lemma usable_grow r : usable_rack r -> half_tip r < half_foot r.
Proof.
  intros U. rewrite foot_tip. pose proof (Rmult_lt_0_compat _ _ (ur_height _ U) (usable_tan _ U)). lra.
Qed.
Lemma reach_up_pos r x : usable_rack r -> 0 < x -> 0 < reach_up r x.
Proof. intros U X. unfold reach_up. pose proof (al_sin1 _ (ur_alpha _ U)). apply Rmult_lt_0_compat; lra. Qed.
Lemma reach_land_pos r x : usable_rack r -> 0 < x -> 0 < reach_land r x.
Proof.
  intros U X. pose proof (reach_up_pos r x U X). pose proof (al_cos _ (ur_alpha _ U)).
  unfold reach_land. unfold reach_up in *. apply Rdiv_lt_0_compat; assumption.
Qed.
Lemma reach_up_0 r : reach_up r 0 = 0.
Proof. unfold reach_up. ring. Qed.

Definition tail_sharp (r : rack) (x : R) : list piece :=
  [Seg (flank_point r x) (flank_point r (- rk_ded r)); Seg (flank_point r (- rk_ded r)) (V (- rk_ded r) (- (PI / 2)) 0)].

Ltac sorted_low := repeat (constructor; [|]); try constructor.

Lemma tip_order r s : usable_rack r -> by_y (vertices (rk_sharp r)) s ->
  length s = 4%nat /\ nth 2 s ORIGIN = (if Rlt_dec 0 (half_tip r) then flank_point r (rk_add r) else V (rk_add r) 0 0).
Proof.
  intros U B. pose proof (usable_grow r U) as G. pose proof (ur_foot _ U) as F. pose proof (ur_tip _ U) as T. pose proof PI_RGT_0.
  unfold rk_sharp, vertices in B. cbn [p_start map p_end] in B. rewrite pt_a0, pt_a, pt_d, pt_c in B.
  set (a0 := V (rk_add r) 0 0) in *. set (a := flank_point r (rk_add r)) in *. set (d := flank_point r (- rk_ded r)) in *.
  set (c := V (- rk_ded r) (- (PI / 2)) 0) in *.
  assert (Ya0 : vy a0 = 0) by reflexivity. assert (Ya : vy a = - half_tip r) by reflexivity.
  assert (Yd : vy d = - half_foot r) by reflexivity. assert (Yc : vy c = - (PI / 2)) by reflexivity.
  assert (TIE0 : half_tip r = 0 -> a = a0) by (intros E; unfold a, a0, flank_point; change (half_tooth r (rk_add r)) with (half_tip r); rewrite E; f_equal; ring).
  assert (TIE1 : half_foot r = PI / 2 -> d = c) by (intros E; unfold d, c, flank_point; change (half_tooth r (- rk_ded r)) with (half_foot r); rewrite E; reflexivity).
  assert (LOW : forall p q, vy p < vy q -> low p q) by (intros; left; assumption).
  destruct (Rlt_dec 0 (half_tip r)) as [A|A]; destruct (Rlt_dec (half_foot r) (PI / 2)) as [D|D].
  - rewrite (by_y_unique [c; d; a; a0] _ s) with (2 := B); [split; reflexivity| |].
    + repeat (constructor; [|repeat (constructor; [apply LOW; lra|]); constructor]). constructor.
    + apply Permutation_rev.
  - assert (low d c) by (destruct (Req_dec (half_foot r) (PI / 2)) as [Q|Q]; [right; apply TIE1, Q|left; lra]).
    rewrite (by_y_unique [d; c; a; a0] _ s) with (2 := B); [split; reflexivity| |].
    + repeat (constructor; [|repeat (constructor; [assumption || (apply LOW; lra)|]); constructor]). constructor.
    + etransitivity; [apply Permutation_rev|]. cbn. apply perm_swap.
  - assert (low a0 a) by (destruct (Req_dec (half_tip r) 0) as [Q|Q]; [right; symmetry; apply TIE0, Q|left; lra]).
    rewrite (by_y_unique [c; d; a0; a] _ s) with (2 := B); [split; reflexivity| |].
    + repeat (constructor; [|repeat (constructor; [assumption || (apply LOW; lra)|]); constructor]). constructor.
    + etransitivity; [apply perm_swap|]. apply (Permutation_rev [a; a0; d; c]).
  - assert (low a0 a) by (destruct (Req_dec (half_tip r) 0) as [Q|Q]; [right; symmetry; apply TIE0, Q|left; lra]).
    assert (low d c) by (destruct (Req_dec (half_foot r) (PI / 2)) as [Q|Q]; [right; apply TIE1, Q|left; lra]).
    rewrite (by_y_unique [d; c; a0; a] _ s) with (2 := B); [split; reflexivity| |].
    + repeat (constructor; [|repeat (constructor; [assumption || (apply LOW; lra)|]); constructor]). constructor.
    + etransitivity; [apply perm_swap|]. etransitivity; [apply (Permutation_rev [a; a0; d; c])|]. cbn. apply perm_swap.
Qed.

Lemma insert_exists x s : StronglySorted (fun p q : vec => vy p <= vy q) s ->
  exists s', Permutation (x :: s) s' /\ StronglySorted (fun p q : vec => vy p <= vy q) s'.
Proof.
  induction 1 as [|y s S IH F]; [exists [x]; split; [reflexivity|repeat constructor]|].
  destruct (Rle_lt_dec (vy x) (vy y)) as [L|L].
  - exists (x :: y :: s). split; [reflexivity|]. constructor; [constructor; assumption|].
    constructor; [exact L|]. revert F. apply List.Forall_impl. intros q H. lra.
  - destruct IH as (s' & P & S'). exists (y :: s'). split; [etransitivity; [apply perm_swap|]; apply perm_skip, P|].
    constructor; [exact S'|]. apply (Permutation_Forall P). constructor; [lra|exact F].
Qed.
Lemma sort_exists l : exists s, by_y l s.
Proof.
  assert (K : exists s, Permutation l s /\ StronglySorted (fun p q : vec => vy p <= vy q) s).
  { induction l as [|x l (s & P & S)]; [exists []; split; constructor|].
    destruct (insert_exists x s S) as (s' & P' & S'). exists s'. split; [|exact S'].
    etransitivity; [apply perm_skip, P|exact P']. }
  destruct K as (s & P & S). exists s. split; [exact P|apply StronglySorted_Sorted, S].
Qed.

Lemma piece_seg_inj p q p' q' : Seg p q = Seg p' q' -> p = p' /\ q = q'.
Proof. intros E; injection E; auto. Qed.

Lemma tip_stage r tip w : usable_rack r -> 0 < tip ->
  (rk_tip_filleted tip (rk_sharp r) w <->
   reach_land r tip <= half_tip r /\ reach_up r tip <= rk_add r + rk_ded r /\ w = tip_side r tip ++ tail_sharp r (flank_top r tip)).
Proof.
  intros U T. pose proof (usable_grow r U) as G. pose proof (ur_height _ U) as HH. pose proof (reach_land_pos r tip U T) as RP.
  unfold rk_tip_filleted. destruct (Rlt_dec 0 tip) as [_|N]; [|contradiction].
  assert (EA : V (rk_add r) (- half_tip r) 0 = flank_point r (rk_add r)) by reflexivity.
  assert (E0 : V (rk_add r) (- half_tip r + half_tip r) 0 = V (rk_add r) 0 0) by (f_equal; ring).
  assert (ED : V (rk_add r - (rk_add r + rk_ded r)) (- half_tip r - (rk_add r + rk_ded r) * tan (rk_alpha r)) 0 = flank_point r (- rk_ded r))
    by (unfold flank_point; rewrite half_at; f_equal; ring).
  assert (ET : V (rk_add r - reach_up r tip) (- half_tip r - reach_up r tip * tan (rk_alpha r)) 0 = flank_point r (flank_top r tip))
    by (unfold flank_point, flank_top; rewrite half_at; f_equal; ring).
  assert (W0 : rk_sharp r = [Seg (V (rk_add r) 0 0) (flank_point r (rk_add r)); Seg (flank_point r (rk_add r)) (flank_point r (- rk_ded r));
      Seg (flank_point r (- rk_ded r)) (V (- rk_ded r) (- (PI / 2)) 0)]) by (unfold rk_sharp; rewrite pt_a0, pt_a, pt_d, pt_c; reflexivity).
  split.
  - intros (s & B & F). destruct (tip_order r s U B) as (LS & NS). rewrite LS in F. change (4 - 2)%nat with 2%nat in F. rewrite NS in F.
    destruct F as (l1 & p & q & l2 & t & c & t' & E1 & E2 & TA). rewrite W0 in E1.
    assert (IA : half_tip r = - vy (flank_point r (rk_add r))) by (cbn [flank_point vy]; unfold half_tip; ring).
    assert (ID : half_foot r = - vy (flank_point r (- rk_ded r))) by (cbn [flank_point vy]; unfold half_foot; ring).
    pose proof (ur_foot _ U) as FT.
    destruct l1 as [|x1 [|x2 [|x3 l1]]].
    + injection E1 as P1 P2 P3 P4 P5. subst p q l2. rewrite <- P2 in *. 
      destruct (Rlt_dec 0 (half_tip r)) as [A|A].
      * rewrite <- EA, <- E0, <- ED in TA. apply (corner_tip _ (ur_alpha _ U)) in TA; try assumption.
        destruct TA as (B1 & B2 & Et & Ec & Et'). split; [exact B1|]. split; [exact B2|].
        rewrite E2. unfold tip_side, tail_sharp. destruct (Rlt_dec 0 tip) as [_|N]; [|contradiction].
        fold (reach_up r tip) in Et'. rewrite ET in Et'. fold (reach_land r tip) in Et, Ec. rewrite Et, Ec, Et'. reflexivity.
      * destruct TA as (N & _). destruct N. symmetry. exact P2.
    + injection E1 as X1 P1 P2 P3 P4 P5. exfalso.
      destruct (Rlt_dec 0 (half_tip r)) as [A|A]; rewrite P2 in ID; cbn [vy] in ID; lra.
    + discriminate.
    + apply (f_equal (@length piece)) in E1. rewrite app_length in E1. cbn in E1. lia.
  - intros (B1 & B2 & EW). destruct (sort_exists (vertices (rk_sharp r))) as (s & B). exists s. split; [exact B|].
    destruct (tip_order r s U B) as (LS & NS). rewrite LS. change (4 - 2)%nat with 2%nat. rewrite NS.
    destruct (Rlt_dec 0 (half_tip r)) as [A|A]; [|lra].
    exists [], (V (rk_add r) 0 0), (flank_point r (- rk_ded r)), [Seg (flank_point r (- rk_ded r)) (V (- rk_ded r) (- (PI / 2)) 0)],
      (V (rk_add r) (- half_tip r + reach_land r tip) 0), (V (rk_add r - tip) (- half_tip r + reach_land r tip) 0), (flank_point r (flank_top r tip)).
    split; [rewrite W0; reflexivity|]. split.
    + rewrite EW. unfold tip_side, tail_sharp. destruct (Rlt_dec 0 tip) as [_|N]; [reflexivity|contradiction].
    + rewrite <- EA, <- E0, <- ED, <- ET. apply (corner_tip _ (ur_alpha _ U)); try assumption.
      split; [exact B1|]. split; [exact B2|]. repeat split; reflexivity.
Qed.

(** The wire before the root fillet: something above the flank, then flank and land. [front] ends in the flank's top. *)
Lemma root_order r front x s : usable_rack r -> half_foot r < PI / 2 ->
  (forall p, In p front -> low (flank_point r (- rk_ded r)) p) ->
  by_y (front ++ [flank_point r (- rk_ded r); V (- rk_ded r) (- (PI / 2)) 0]) (x :: s) -> nth 1 (x :: s) ORIGIN = flank_point r (- rk_ded r).
Proof.
  intros U D F (P & S). apply strongly in S. set (d := flank_point r (- rk_ded r)) in *. set (c := V (- rk_ded r) (- (PI / 2)) 0) in *.
  assert (Yd : vy d = - half_foot r) by reflexivity. assert (Yc : vy c = - (PI / 2)) by reflexivity.
  assert (IN : forall p, In p (x :: s) -> p = c \/ low d p).
  { intros p I. apply (Permutation_in _ (Permutation_sym P)) in I. apply in_app_or in I. destruct I as [I|[I|[I|[]]]].
    - right. apply F, I.
    - right. right. exact I.
    - left. symmetry. exact I. }
  inversion S as [|x' s' S1 F1]; subst. rewrite List.Forall_forall in F1.
  assert (IC : In c (x :: s)) by (apply (Permutation_in _ P), in_or_app; right; right; left; reflexivity).
  assert (EX : x = c).
  { destruct IC as [IC|IC]; [exact IC|]. specialize (F1 _ IC). destruct (IN x (or_introl eq_refl)) as [Q|Q]; [exact Q|]. apply low_le in Q. lra. }
  subst x. assert (P2 : Permutation (front ++ [d]) s).
  { apply (Permutation_cons_inv (a := c)). etransitivity; [|exact P].
    change (front ++ [d; c]) with (front ++ [d] ++ [c]). rewrite app_assoc. apply Permutation_cons_append. }
  assert (IN2 : forall p, In p s -> low d p).
  { intros p I. apply (Permutation_in _ (Permutation_sym P2)) in I. apply in_app_or in I. destruct I as [I|[I|[]]]; [apply F, I|right; exact I]. }
  assert (ID : In d s) by (apply (Permutation_in _ P2), in_or_app; right; left; reflexivity).
  destruct s as [|y s]; [destruct ID|]. cbn [nth]. inversion S1 as [|y' s' S2 F2]; subst. rewrite List.Forall_forall in F2.
  destruct ID as [ID|ID]; [exact ID|]. specialize (F2 _ ID). destruct (IN2 y (or_introl eq_refl)) as [Q|Q]; [lra|symmetry; exact Q].
Qed.
Lemma root_order_bad r front s : usable_rack r -> PI / 2 < half_foot r ->
  (forall p, In p front -> vy (flank_point r (- rk_ded r)) < vy p) ->
  by_y (front ++ [flank_point r (- rk_ded r); V (- rk_ded r) (- (PI / 2)) 0]) s ->
  (front <> nil) -> nth 1 s ORIGIN <> flank_point r (- rk_ded r) /\
    vy (nth 1 s ORIGIN) <= - (PI / 2).
Proof.
  intros U D F (P & S) NE. apply strongly in S. set (d := flank_point r (- rk_ded r)) in *. set (c := V (- rk_ded r) (- (PI / 2)) 0) in *.
  assert (Yd : vy d = - half_foot r) by reflexivity. assert (Yc : vy c = - (PI / 2)) by reflexivity.
  assert (ID : In d s) by (apply (Permutation_in _ P), in_or_app; right; left; reflexivity).
  destruct s as [|x s]; [destruct ID|]. inversion S as [|x' s' S1 F1]; subst. rewrite List.Forall_forall in F1.
  assert (EX : x = d).
  { destruct ID as [ID|ID]; [exact ID|]. specialize (F1 _ ID).
    assert (IX : In x (front ++ [d; c])) by (apply (Permutation_in _ (Permutation_sym P)); left; reflexivity).
    apply in_app_or in IX. destruct IX as [I|[I|[I|[]]]]; [specialize (F _ I); lra|symmetry; exact I|rewrite <- I in F1; lra]. }
  subst x. assert (P2 : Permutation (front ++ [c]) s).
  { apply (Permutation_cons_inv (a := d)). etransitivity; [|exact P]. apply (Permutation_middle front [c] d). }
  assert (IN2 : forall p, In p s -> vy d < vy p).
  { intros p I. apply (Permutation_in _ (Permutation_sym P2)) in I. apply in_app_or in I. destruct I as [I|[I|[]]]; [apply F, I|rewrite <- I; lra]. }
  assert (IC : In c s) by (apply (Permutation_in _ P2), in_or_app; right; left; reflexivity).
  destruct s as [|y s]; [destruct IC|]. cbn [nth]. split; [intros E; specialize (IN2 y (or_introl eq_refl)); rewrite E in IN2; lra|].
  inversion S1 as [|y' s' S2 F2]; subst. rewrite List.Forall_forall in F2.
  destruct IC as [IC|IC]; [rewrite IC; lra|]. specialize (F2 _ IC). lra.
Qed.

(** Root stage for a wire [l ++ tail_sharp r x] whose only straight corner besides [d] is [a] (if at all). *)
Lemma root_stage r l x root w : usable_rack r -> 0 < root -> - rk_ded r <= x <= rk_add r -> l <> [] ->
  (forall p, In p (vertices l) -> vy (flank_point r (- rk_ded r)) < vy p \/ p = flank_point r x) ->
  (forall l1 p v q l2, l ++ tail_sharp r x = l1 ++ Seg p v :: Seg v q :: l2 ->
     (l1 = l /\ p = flank_point r x /\ v = flank_point r (- rk_ded r) /\ q = V (- rk_ded r) (- (PI / 2)) 0 /\ l2 = []) \/ v = flank_point r (rk_add r)) ->
  (rk_root_filleted root (l ++ tail_sharp r x) w <->
   reach_land r root <= PI / 2 - half_foot r /\ reach_up r root <= x + rk_ded r /\
   w = l ++ Seg (flank_point r x) (flank_point r (flank_bottom r root)) :: root_side r root).
Proof.
  intros U T (X0 & X1) NE FR DEC. pose proof (usable_grow r U) as G. pose proof (usable_tan r U) as TT.
  pose proof (reach_land_pos r root U T) as RP. pose proof (reach_up_pos r root U T) as RU. pose proof (ur_foot _ U) as FT. pose proof (ur_tip _ U) as TP.
  set (d := flank_point r (- rk_ded r)) in *. set (c := V (- rk_ded r) (- (PI / 2)) 0) in *.
  assert (Yd : vy d = - half_foot r) by reflexivity. assert (Yc : vy c = - (PI / 2)) by reflexivity.
  assert (VE : vertices (l ++ tail_sharp r x) = vertices l ++ [d; c]).
  { destruct l as [|y l]; [contradiction|]. unfold vertices. cbn [app]. rewrite app_comm_cons, map_app. reflexivity. }
  assert (YX : vy (flank_point r x) = vy d + (x + rk_ded r) * tan (rk_alpha r)).
  { unfold d, flank_point. cbn [vy]. unfold half_tooth. ring. }
  assert (YA : vy (flank_point r (rk_add r)) = - half_tip r) by reflexivity.
  assert (XD : 0 <= (x + rk_ded r) * tan (rk_alpha r)) by (apply Rmult_le_pos; lra).
  assert (EP : V (- rk_ded r + (x + rk_ded r)) (- half_foot r + (x + rk_ded r) * tan (rk_alpha r)) 0 = flank_point r x).
  { unfold flank_point. rewrite half_at'. f_equal; ring. }
  assert (EC : V (- rk_ded r) (- half_foot r - (PI / 2 - half_foot r)) 0 = c) by (unfold c; f_equal; ring).
  assert (EB : V (- rk_ded r + reach_up r root) (- half_foot r + reach_up r root * tan (rk_alpha r)) 0 = flank_point r (flank_bottom r root)).
  { unfold flank_point, flank_bottom. rewrite half_at'. f_equal; ring. }
  unfold rk_root_filleted. destruct (Rlt_dec 0 root) as [_|N]; [|contradiction]. rewrite VE.
  assert (NV : vertices l <> []) by (destruct l; [contradiction|discriminate]).
  split.
  - intros (s & B & F). destruct F as (l1 & p & q & l2 & t & ce & t' & E1 & E2 & TA).
    assert (HX : - rk_ded r < x \/ x = - rk_ded r) by lra.
    destruct (Rlt_le_dec (half_foot r) (PI / 2)) as [D|D].
    + assert (ND : nth 1 s ORIGIN = d).
      { destruct s as [|y s].
        - destruct B as (B & _). apply Permutation_sym, Permutation_nil in B. destruct (vertices l); discriminate.
        - apply (root_order r (vertices l)); try assumption. intros z I. destruct (FR z I) as [Q|Q].
          + left. fold d. lra.
          + rewrite Q. destruct HX as [HX|HX]; [left; rewrite YX; pose proof (Rmult_lt_0_compat (x + rk_ded r) _ ltac:(lra) TT); fold d; lra|right; rewrite HX; reflexivity].
          }
      rewrite ND in E1, TA. destruct (DEC _ _ _ _ _ E1) as [(L1 & Pp & _ & Qq & L2)|V1].
      * subst l1 p q l2. assert (HX' : 0 < x + rk_ded r).
        { destruct HX as [HX|HX]; [lra|]. destruct TA as (N1 & _). destruct N1. rewrite HX. reflexivity. }
        rewrite <- EP, <- EC in TA. change d with (V (- rk_ded r) (- half_foot r) 0) in TA.
        apply (corner_root _ (ur_alpha _ U)) in TA; try lra. destruct TA as (B1 & B2 & Et & Ec & Et').
        fold (reach_land r root) in B1, Ec, Et'. fold (reach_up r root) in B2, Et. rewrite EB in Et.
        split; [exact B1|]. split; [exact B2|]. rewrite E2. unfold root_side. destruct (Rlt_dec 0 root) as [_|N]; [|contradiction].
        rewrite Et, Ec, Et'. reflexivity.
      * exfalso. rewrite V1 in Yd. rewrite YA in Yd. lra.
    + exfalso. destruct (Req_dec (half_foot r) (PI / 2)) as [Q|Q].
      * assert (CD : d = c) by (unfold d, c, flank_point; change (half_tooth r (- rk_ded r)) with (half_foot r); rewrite Q; reflexivity).
        destruct (DEC _ _ _ _ _ E1) as [(L1 & Pp & Vv & Qq & L2)|V1].
        -- destruct TA as (_ & N2 & _). apply N2. rewrite Qq, Vv. symmetry. exact CD.
        -- (* a would have to be the second lowest vertex *)
           assert (IDs : exists y z s', s = y :: z :: s' /\ vy z <= - (PI / 2)).
           { destruct B as (P & S). apply strongly in S.
             assert (I0 : In d s) by (apply (Permutation_in _ P), in_or_app; right; left; reflexivity).
             assert (P3 : Permutation (d :: vertices l ++ [c]) s) by (etransitivity; [|exact P]; apply (Permutation_middle (vertices l) [c] d)).
             destruct s as [|y s]; [destruct I0|]. destruct s as [|z s].
             { apply Permutation_length in P3. cbn in P3. rewrite app_length in P3. cbn in P3. lia. }
             exists y, z, s. split; [reflexivity|]. inversion S as [|y' s' S1 F1]; subst. inversion S1 as [|z' s'' S2 F2]; subst.
             rewrite List.Forall_forall in F1, F2.
             destruct (Rle_lt_dec (vy z) (- (PI / 2))) as [K|K]; [exact K|exfalso].
             assert (NI : ~ In d (z :: s)).
             { intros [I|I]; [rewrite I in K; lra|specialize (F2 _ I); lra]. }
             assert (NC : ~ In c (z :: s)).
             { rewrite <- CD. exact NI. }
             destruct I0 as [I0|I0]; [|contradiction].
             subst y. apply Permutation_cons_inv in P3. apply NC, (Permutation_in _ P3), in_or_app. right. left. reflexivity. }
           destruct IDs as (y & z & s' & -> & K). cbn [nth] in V1. rewrite V1, YA in K. lra.
      * assert (LT : PI / 2 < half_foot r) by lra.
        assert (HXs : x = - rk_ded r \/ 0 < (x + rk_ded r) * tan (rk_alpha r)) by (destruct HX as [HX|HX]; [right; apply Rmult_lt_0_compat; lra|left; exact HX]).
        destruct HXs as [HX0|HX0].
        -- destruct (DEC _ _ _ _ _ E1) as [(L1 & Pp & Vv & _)|V1].
           ++ destruct TA as (N1 & _). apply N1. rewrite Pp, Vv, HX0. reflexivity.
           ++ assert (K : vy (nth 1 s ORIGIN) <= - (PI / 2)).
              { destruct B as (P & S). apply strongly in S.
                assert (I0 : In d s) by (apply (Permutation_in _ P), in_or_app; right; left; reflexivity).
                assert (I1 : In c s) by (apply (Permutation_in _ P), in_or_app; right; right; left; reflexivity).
                destruct s as [|y s]; [destruct I0|]. inversion S as [|y' s' S1 F1]; subst. rewrite List.Forall_forall in F1.
                destruct s as [|z s]; [apply Permutation_length in P; rewrite app_length in P; cbn in P; lia|]. cbn [nth].
                inversion S1 as [|z' s'' S2 F2]; subst. rewrite List.Forall_forall in F2.
                assert (YC : In c (z :: s) -> vy z <= - (PI / 2)) by (intros [I|I]; [rewrite I; lra|specialize (F2 _ I); lra]).
                destruct I1 as [I1|I1]; [|exact (YC I1)]. assert (vy c <= vy d) by (rewrite <- I1; destruct I0 as [I0|I0]; [rewrite I0; lra|exact (F1 _ I0)]). lra. }
              rewrite V1, YA in K. lra.
        -- destruct (root_order_bad r (vertices l) s U LT) as (K1 & K2); try assumption.
           { intros z I. destruct (FR z I) as [Q1|Q1]; fold d; [lra|rewrite Q1; lra]. }
           destruct (DEC _ _ _ _ _ E1) as [(_ & _ & Vv & _)|V1]; [apply K1; exact Vv|rewrite V1, YA in K2; lra].
  - intros (B1 & B2 & EW). assert (D : half_foot r < PI / 2) by lra.
    destruct (sort_exists (vertices l ++ [d; c])) as (s & B). exists s. split; [exact B|].
    assert (ND : nth 1 s ORIGIN = d).
    { destruct s as [|y s].
      - destruct B as (B & _). apply Permutation_sym, Permutation_nil in B. destruct (vertices l); discriminate.
      - apply (root_order r (vertices l)); try assumption. intros z I. destruct (FR z I) as [Q|Q].
        + left. fold d. lra.
        + rewrite Q. left. rewrite YX. pose proof (Rmult_lt_0_compat (x + rk_ded r) _ ltac:(lra) TT). fold d. lra.
        }
    rewrite ND. exists l, (flank_point r x), c, [], (flank_point r (flank_bottom r root)), (V (- rk_ded r + root) (- half_foot r - reach_land r root) 0),
      (V (- rk_ded r) (- half_foot r - reach_land r root) 0).
    split; [reflexivity|]. split.
    + rewrite EW. unfold root_side. destruct (Rlt_dec 0 root) as [_|N]; [reflexivity|contradiction].
    + rewrite <- EP, <- EC, <- EB. change d with (V (- rk_ded r) (- half_foot r) 0). apply (corner_root _ (ur_alpha _ U)); try lra.
      split; [exact B1|]. split; [exact B2|]. repeat split; reflexivity.
Qed.

Lemma flank_top_y r x : vy (flank_point r x) = vy (flank_point r (- rk_ded r)) + (x + rk_ded r) * tan (rk_alpha r).
Proof. unfold flank_point. cbn [vy]. unfold half_tooth. ring. Qed.

(** With usable teeth: the fillets succeed exactly if there is room, and then the outline is the rounded one. *)
Theorem C114_outline r tip root w : usable_rack r -> 0 <= tip -> 0 <= root ->
  (rk_outline r tip root w <-> room r tip root /\ w = rounded r tip root).
Proof.
  intros U T0 R0. pose proof (usable_tan r U) as TT. pose proof (usable_grow r U) as G. pose proof (ur_foot _ U) as FT.
  pose proof (ur_height _ U) as HH.
  assert (NOROOT : forall l, root = 0 -> l ++ tail_sharp r (flank_top r tip) = l ++ Seg (flank_point r (flank_top r tip)) (flank_point r (flank_bottom r root)) :: root_side r root).
  { intros l E. unfold root_side, tail_sharp, flank_bottom. rewrite E, reach_up_0, Rplus_0_r. destruct (Rlt_dec 0 0) as [K|K]; [lra|reflexivity]. }
  assert (YD : vy (flank_point r (- rk_ded r)) = - half_foot r) by reflexivity.
  destruct (Req_dec tip 0) as [ET|NT].
  - (* no tip fillet *)
    assert (FTOP : flank_top r tip = rk_add r) by (unfold flank_top; rewrite ET, reach_up_0; ring).
    assert (SIDE : tip_side r tip = [Seg (V (rk_add r) 0 0) (flank_point r (rk_add r))]).
    { unfold tip_side. rewrite FTOP. destruct (Rlt_dec 0 tip); [lra|reflexivity]. }
    assert (SH : rk_sharp r = tip_side r tip ++ tail_sharp r (flank_top r tip)).
    { rewrite SIDE, FTOP. unfold rk_sharp, tail_sharp. rewrite pt_a0, pt_a, pt_d, pt_c. reflexivity. }
    assert (O : rk_outline r tip root w <-> rk_root_filleted root (tip_side r tip ++ tail_sharp r (flank_top r tip)) w).
    { unfold rk_outline, rk_tip_filleted. destruct (Rlt_dec 0 tip); [lra|]. rewrite <- SH. split; [intros (w1 & -> & K); exact K|intros K; eauto]. }
    rewrite O. clear O. unfold room, rounded.
    assert (RT : reach_up r tip = 0) by (rewrite ET; apply reach_up_0). rewrite RT.
    destruct (Req_dec root 0) as [ER|NR].
    + unfold rk_root_filleted. destruct (Rlt_dec 0 root) as [K|_]; [lra|]. rewrite (NOROOT _ ER). rewrite ER, reach_up_0.
      split; [intros ->; split; [|reflexivity]; repeat split; intros; lra|intros (_ & ->); reflexivity].
    + rewrite (root_stage r (tip_side r tip) (flank_top r tip) root w U); try lra.
      * rewrite FTOP. split.
        -- intros (A & B & ->). split; [repeat split; intros; lra|reflexivity].
        -- intros ((_ & A & B) & ->). split; [apply A; lra|]. split; [lra|reflexivity].
      * rewrite SIDE. discriminate.
      * rewrite SIDE. cbn [vertices p_start map p_end]. intros p [I|[I|[]]]; subst p; [left; cbn [vy]; lra|right; rewrite FTOP; reflexivity].
      * rewrite SIDE, FTOP. unfold tail_sharp. cbn [app]. intros l1 p v q l2 E. destruct l1 as [|y1 [|y2 [|y3 l1]]].
        -- right. injection E as _ E _ _ _. symmetry. exact E.
        -- left. injection E as E0 E1 E2 _ E3 E4. subst. repeat split; reflexivity.
        -- discriminate.
        -- apply (f_equal (@length piece)) in E. rewrite app_length in E. cbn in E. lia.
  - assert (T : 0 < tip) by lra. pose proof (reach_up_pos r tip U T) as RU. pose proof (reach_land_pos r tip U T) as RL.
    assert (SIDE : tip_side r tip = [Seg (V (rk_add r) 0 0) (V (rk_add r) (- half_tip r + reach_land r tip) 0);
       Bow (V (rk_add r - tip) (- half_tip r + reach_land r tip) 0) (V (rk_add r) (- half_tip r + reach_land r tip) 0) (flank_point r (flank_top r tip))]).
    { unfold tip_side. destruct (Rlt_dec 0 tip); [reflexivity|contradiction]. }
    assert (O : rk_outline r tip root w <-> (reach_land r tip <= half_tip r /\ reach_up r tip <= rk_add r + rk_ded r) /\
       rk_root_filleted root (tip_side r tip ++ tail_sharp r (flank_top r tip)) w).
    { unfold rk_outline. split.
      - intros (w1 & A & B). apply (tip_stage r tip w1 U T) in A. destruct A as (A1 & A2 & ->). tauto.
      - intros ((A1 & A2) & B). eexists. split; [apply (tip_stage r tip _ U T); split; [exact A1|split; [exact A2|reflexivity]]|exact B]. }
    rewrite O. clear O. unfold room, rounded.
    destruct (Req_dec root 0) as [ER|NR].
    + unfold rk_root_filleted. destruct (Rlt_dec 0 root) as [K|_]; [lra|]. rewrite (NOROOT _ ER). rewrite ER, reach_up_0.
      split; [intros ((A1 & A2) & ->); split; [|reflexivity]; repeat split; intros; lra|intros ((A1 & _ & A2) & ->); split; [split; [apply A1, T|lra]|reflexivity]].
    + assert (STAGE : reach_land r tip <= half_tip r -> reach_up r tip <= rk_add r + rk_ded r ->
         (rk_root_filleted root (tip_side r tip ++ tail_sharp r (flank_top r tip)) w <->
          reach_land r root <= PI / 2 - half_foot r /\ reach_up r root <= flank_top r tip + rk_ded r /\
          w = tip_side r tip ++ Seg (flank_point r (flank_top r tip)) (flank_point r (flank_bottom r root)) :: root_side r root)).
      { intros A1 A2. apply (root_stage r (tip_side r tip) (flank_top r tip) root w U); try lra.
        * unfold flank_top. lra.
        * rewrite SIDE. discriminate.
        * rewrite SIDE. cbn [vertices p_start map p_end]. intros p [I|[I|[I|[]]]]; subst p; [left; cbn [vy]; lra|left; rewrite YD; cbn [vy]; lra|right; reflexivity].
        * rewrite SIDE. unfold tail_sharp. cbn [app]. intros l1 p v q l2 E. destruct l1 as [|y1 [|y2 [|y3 [|y4 l1]]]].
          -- discriminate.
          -- discriminate.
          -- left. injection E as E0 E1 E2 E3 _ E4 E5. subst. repeat split; reflexivity.
          -- discriminate.
          -- apply (f_equal (@length piece)) in E. cbn in E. rewrite app_length in E. cbn in E. lia. }
      split.
      * intros ((A1 & A2) & B). apply (STAGE A1 A2) in B. destruct B as (B1 & B2 & ->). split; [|reflexivity].
        unfold flank_top in B2. repeat split; intros; lra.
      * intros ((A1 & A2 & A3) & ->). specialize (A1 T). specialize (A2 ltac:(lra)).
        assert (RR : 0 < reach_up r root) by (apply reach_up_pos; [exact U|lra]).
        split; [lra|]. apply STAGE; try lra. split; [exact A2|]. split; [unfold flank_top; lra|reflexivity].
Qed.

(** ** What the fillets leave and what they change *)
Lemma line_point r s : rk_line r s = flank_point r (rack_level r s).
Proof. unfold rk_line, flank_point, half_tooth, rack_level, rk_pt_d, rk_pt_a, rk_pitch. vec_ring. Qed.
Lemma level_onto r x : rk_add r + rk_ded r <> 0 -> exists s, rack_level r s = x.
Proof. intros H. exists ((x + rk_ded r) / (rk_add r + rk_ded r)). unfold rack_level. field. exact H. Qed.

Lemma cone_circle s c l m : s * s + c * c = 1 -> 0 < s -> 0 < c -> 0 <= l -> 0 <= m ->
  (l + m * s) * (l + m * s) + m * c * (m * c) = 1 ->
  s <= l + m * s <= 1 /\ s * l + m <= 1 /\ (s * l + m = 1 -> l + m * s = s).
Proof.
  intros E S C L M N.
  assert (EQ : l * l + m * m + 2 * (l * m * s) = 1).
  { rewrite <- N. replace ((l + m * s) * (l + m * s) + m * c * (m * c)) with (l * l + 2 * (l * m * s) + m * m * (s * s + c * c)) by ring. rewrite E. ring. }
  assert (LMS : 0 <= l * m * s) by (repeat apply Rmult_le_pos; lra).
  assert (MS : 0 <= m * s) by (apply Rmult_le_pos; lra). assert (SL : 0 <= s * l) by (apply Rmult_le_pos; lra).
  assert (A1 : (l + m * s) * (l + m * s) = 1 - m * m * (c * c)) by (rewrite <- N; ring).
  assert (A2 : (s * l + m) * (s * l + m) = 1 - l * l * (c * c)).
  { replace ((s * l + m) * (s * l + m)) with (s * s * (l * l) + m * m + 2 * (l * m * s)) by ring.
    replace (s * s) with (1 - c * c) by lra. replace ((1 - c * c) * (l * l) + m * m + 2 * (l * m * s)) with (l * l + m * m + 2 * (l * m * s) - l * l * (c * c)) by ring.
    rewrite EQ. reflexivity. }
  assert (CC : 0 < c * c) by (apply Rmult_lt_0_compat; lra).
  assert (MM : 0 <= m * m <= 1) by (pose proof (Rle_0_sqr m) as Q1; pose proof (Rle_0_sqr l) as Q2; unfold Rsqr in *; lra).
  assert (LL : 0 <= l * l) by (pose proof (Rle_0_sqr l) as Q2; unfold Rsqr in *; lra).
  assert (MC : 0 <= m * m * (c * c) <= c * c) by (split; [apply Rmult_le_pos; lra|rewrite <- (Rmult_1_l (c * c)) at 2; apply Rmult_le_compat_r; lra]).
  assert (LC : 0 <= l * l * (c * c)) by (apply Rmult_le_pos; lra).
  split; [split|split].
  - apply Rsqr_incr_0; unfold Rsqr; lra.
  - apply Rsqr_incr_0; unfold Rsqr; lra.
  - apply Rsqr_incr_0; unfold Rsqr; lra.
  - intros Q. rewrite Q in A2. assert (Z : l * l * (c * c) = 0) by lra. apply Rmult_integral in Z. destruct Z as [Z|Z]; [|lra].
    apply Rmult_integral in Z. assert (l = 0) by lra. subst l. assert (m = 1) by lra. subst m. ring.
Qed.

Lemma reach_sides al rad : 0 < al < PI / 2 ->
  rad * (1 - sin al) * tan al + rad * (1 - sin al) / cos al = rad * cos al.
Proof.
  intros A. pose proof (al_cos al A) as C. pose proof (al_one al) as O. unfold tan.
  transitivity (rad * (1 - sin al * sin al) / cos al); [field; lra|]. rewrite <- O. field. lra.
Qed.
Lemma tip_arc_frame r tip : usable_rack r ->
  vsub (flank_point r (flank_top r tip)) (V (rk_add r - tip) (- half_tip r + reach_land r tip) 0) =
  V (tip * sin (rk_alpha r)) (- (tip * cos (rk_alpha r))) 0.
Proof.
  intros U. pose proof (reach_sides _ tip (ur_alpha _ U)) as E. unfold flank_point. rewrite half_at. unfold flank_top, reach_land, reach_up in *.
  apply vec_eq; vec_simpl; [ring|lra|ring].
Qed.
Lemma root_arc_frame r root : usable_rack r ->
  vsub (flank_point r (flank_bottom r root)) (V (- rk_ded r + root) (- half_foot r - reach_land r root) 0) =
  V (- (root * sin (rk_alpha r))) (root * cos (rk_alpha r)) 0.
Proof.
  intros U. pose proof (reach_sides _ root (ur_alpha _ U)) as E. unfold flank_point. rewrite half_at'. unfold flank_bottom, reach_land, reach_up in *.
  apply vec_eq; vec_simpl; [ring|lra|ring].
Qed.

(** Signed distance below the flank line, times [cos alpha]. *)
Lemma below_flank r p q : (vy p + half_tooth r (vx p)) * cos (rk_alpha r) = (vy q + half_tooth r (vx q)) * cos (rk_alpha r)
    + ((vy p - vy q) * cos (rk_alpha r) - (vx p - vx q) * sin (rk_alpha r)) \/ cos (rk_alpha r) = 0.
Proof.
  destruct (Req_dec (cos (rk_alpha r)) 0) as [E|E]; [right; exact E|left]. unfold half_tooth, tan. field. exact E.
Qed.

Lemma tip_arc_facts r tip p : usable_rack r -> 0 < tip ->
  on_piece (Bow (V (rk_add r - tip) (- half_tip r + reach_land r tip) 0) (V (rk_add r) (- half_tip r + reach_land r tip) 0) (flank_point r (flank_top r tip))) p ->
  flank_top r tip <= vx p <= rk_add r /\ - half_tooth r (vx p) <= vy p /\ (vy p = - half_tooth r (vx p) -> vx p = flank_top r tip) /\
  vy p <= - half_tip r + reach_land r tip.
Proof.
  intros U T (N & l & m & L & M & E). pose proof (al_cos _ (ur_alpha _ U)) as C. pose proof (al_sin _ (ur_alpha _ U)) as S. pose proof (al_one (rk_alpha r)) as O.
  rewrite (tip_arc_frame r tip U) in E. set (c := V (rk_add r - tip) _ 0) in *.
  assert (A : vsub (V (rk_add r) (- half_tip r + reach_land r tip) 0) c = V tip 0 0) by (unfold c; apply vec_eq; vec_simpl; ring).
  rewrite A in N, E. assert (E' : vsub p c = smul tip (V (l + m * sin (rk_alpha r)) (- (m * cos (rk_alpha r))) 0)) by (rewrite E; vec_ring).
  assert (NT : norm (V tip 0 0) = tip) by (apply norm_of; [lra|vec_simpl; ring]). rewrite NT in N. apply norm_sq in N. rewrite E' in N.
  assert (N1 : (l + m * sin (rk_alpha r)) * (l + m * sin (rk_alpha r)) + m * cos (rk_alpha r) * (m * cos (rk_alpha r)) = 1).
  { apply (Rmult_eq_reg_l (tip * tip)); [|apply Rgt_not_eq, Rmult_lt_0_compat; lra]. rewrite Rmult_1_r. etransitivity; [|exact N]. vec_simpl. ring. }
  destruct (cone_circle _ _ l m O S C L M N1) as ((K1 & K2) & K3 & K4).
  assert (PX : vx p = rk_add r - tip + tip * (l + m * sin (rk_alpha r))) by (apply (f_equal vx) in E'; unfold c in E'; cbn [vsub smul vx] in E'; lra).
  assert (PY : vy p = vy c - tip * (m * cos (rk_alpha r))) by (apply (f_equal vy) in E'; cbn [vsub smul vy] in E'; lra).
  assert (TOP : flank_top r tip = rk_add r - tip + tip * sin (rk_alpha r)) by (unfold flank_top, reach_up; ring).
  assert (LEV : (vy p + half_tooth r (vx p)) = tip / cos (rk_alpha r) * (1 - (sin (rk_alpha r) * l + m))).
  { set (t := flank_point r (flank_top r tip)). assert (TZ : vy t + half_tooth r (vx t) = 0) by (unfold t, flank_point; cbn [vx vy]; ring).
    destruct (below_flank r p t) as [Q|Q]; [|lra]. rewrite TZ in Q.
    assert (TX : vx t - vx c = tip * sin (rk_alpha r)) by (pose proof (f_equal vx (tip_arc_frame r tip U)) as F; cbn [vsub vx] in F; exact F).
    assert (TY : vy t - vy c = - (tip * cos (rk_alpha r))) by (pose proof (f_equal vy (tip_arc_frame r tip U)) as F; cbn [vsub vy] in F; exact F).
    assert (CX : vx c = rk_add r - tip) by reflexivity.
    apply (Rmult_eq_reg_r (cos (rk_alpha r))); [|lra]. rewrite Q.
    replace (vy p - vy t) with (tip * cos (rk_alpha r) - tip * (m * cos (rk_alpha r))) by lra.
    replace (vx p - vx t) with (tip * (l + m * sin (rk_alpha r)) - tip * sin (rk_alpha r)) by lra.
    transitivity (tip * ((sin (rk_alpha r) * sin (rk_alpha r) + cos (rk_alpha r) * cos (rk_alpha r)) - (sin (rk_alpha r) * l + m * (sin (rk_alpha r) * sin (rk_alpha r) + cos (rk_alpha r) * cos (rk_alpha r))))); [ring|].
    rewrite O. field. lra. }
  assert (TC : 0 < tip / cos (rk_alpha r)) by (apply Rdiv_lt_0_compat; lra).
  assert (MC : 0 <= tip * (m * cos (rk_alpha r))) by (repeat apply Rmult_le_pos; lra). assert (CY : vy c = - half_tip r + reach_land r tip) by reflexivity.
  split; [|split; [|split; [|lra]]].
  - rewrite PX, TOP. pose proof (Rmult_le_compat_l tip _ _ ltac:(lra) K1). pose proof (Rmult_le_compat_l tip _ _ ltac:(lra) K2). lra.
  - assert (0 <= tip / cos (rk_alpha r) * (1 - (sin (rk_alpha r) * l + m))) by (apply Rmult_le_pos; lra). lra.
  - intros Q. assert (Z : tip / cos (rk_alpha r) * (1 - (sin (rk_alpha r) * l + m)) = 0) by lra. apply Rmult_integral in Z.
    rewrite PX, TOP, K4; [reflexivity|]. lra.
Qed.

Lemma root_arc_facts r root p : usable_rack r -> 0 < root ->
  on_piece (Bow (V (- rk_ded r + root) (- half_foot r - reach_land r root) 0) (flank_point r (flank_bottom r root)) (V (- rk_ded r) (- half_foot r - reach_land r root) 0)) p ->
  - rk_ded r <= vx p <= flank_bottom r root /\ vy p <= - half_tooth r (vx p) /\ (vy p = - half_tooth r (vx p) -> vx p = flank_bottom r root) /\
  - half_foot r - reach_land r root <= vy p.
Proof.
  intros U T (N & m & l & M & L & E). pose proof (al_cos _ (ur_alpha _ U)) as C. pose proof (al_sin _ (ur_alpha _ U)) as S. pose proof (al_one (rk_alpha r)) as O.
  rewrite (root_arc_frame r root U) in E, N. set (c := V (- rk_ded r + root) _ 0) in *.
  assert (A : vsub (V (- rk_ded r) (- half_foot r - reach_land r root) 0) c = V (- root) 0 0) by (unfold c; apply vec_eq; vec_simpl; ring).
  rewrite A in E. assert (E' : vsub p c = smul (- root) (V (l + m * sin (rk_alpha r)) (- (m * cos (rk_alpha r))) 0)) by (rewrite E; vec_ring).
  assert (NT : norm (V (- (root * sin (rk_alpha r))) (root * cos (rk_alpha r)) 0) = root).
  { apply norm_of; [lra|]. vec_simpl. transitivity (root * root * (sin (rk_alpha r) * sin (rk_alpha r) + cos (rk_alpha r) * cos (rk_alpha r))); [ring|rewrite O; ring]. }
  rewrite NT in N. apply norm_sq in N. rewrite E' in N.
  assert (N1 : (l + m * sin (rk_alpha r)) * (l + m * sin (rk_alpha r)) + m * cos (rk_alpha r) * (m * cos (rk_alpha r)) = 1).
  { apply (Rmult_eq_reg_l (root * root)); [|apply Rgt_not_eq, Rmult_lt_0_compat; lra]. rewrite Rmult_1_r. etransitivity; [|exact N]. vec_simpl. ring. }
  destruct (cone_circle _ _ l m O S C L M N1) as ((K1 & K2) & K3 & K4).
  assert (PX : vx p = - rk_ded r + root - root * (l + m * sin (rk_alpha r))) by (apply (f_equal vx) in E'; unfold c in E'; cbn [vsub smul vx] in E'; lra).
  assert (PY : vy p = vy c + root * (m * cos (rk_alpha r))) by (apply (f_equal vy) in E'; cbn [vsub smul vy] in E'; lra).
  assert (BOT : flank_bottom r root = - rk_ded r + root - root * sin (rk_alpha r)) by (unfold flank_bottom, reach_up; ring).
  assert (LEV : (vy p + half_tooth r (vx p)) = - (root / cos (rk_alpha r) * (1 - (sin (rk_alpha r) * l + m)))).
  { set (t := flank_point r (flank_bottom r root)). assert (TZ : vy t + half_tooth r (vx t) = 0) by (unfold t, flank_point; cbn [vx vy]; ring).
    destruct (below_flank r p t) as [Q|Q]; [|lra]. rewrite TZ in Q.
    assert (TX : vx t - vx c = - (root * sin (rk_alpha r))) by (pose proof (f_equal vx (root_arc_frame r root U)) as F; cbn [vsub vx] in F; exact F).
    assert (TY : vy t - vy c = root * cos (rk_alpha r)) by (pose proof (f_equal vy (root_arc_frame r root U)) as F; cbn [vsub vy] in F; exact F).
    assert (CX : vx c = - rk_ded r + root) by reflexivity.
    apply (Rmult_eq_reg_r (cos (rk_alpha r))); [|lra]. rewrite Q.
    replace (vy p - vy t) with (root * (m * cos (rk_alpha r)) - root * cos (rk_alpha r)) by lra.
    replace (vx p - vx t) with (root * sin (rk_alpha r) - root * (l + m * sin (rk_alpha r))) by lra.
    transitivity (- root * ((sin (rk_alpha r) * sin (rk_alpha r) + cos (rk_alpha r) * cos (rk_alpha r)) - (sin (rk_alpha r) * l + m * (sin (rk_alpha r) * sin (rk_alpha r) + cos (rk_alpha r) * cos (rk_alpha r))))); [ring|].
    rewrite O. field. lra. }
  assert (TC : 0 < root / cos (rk_alpha r)) by (apply Rdiv_lt_0_compat; lra).
  assert (MC : 0 <= root * (m * cos (rk_alpha r))) by (repeat apply Rmult_le_pos; lra). assert (CY : vy c = - half_foot r - reach_land r root) by reflexivity.
  split; [|split; [|split; [|lra]]].
  - rewrite PX, BOT. pose proof (Rmult_le_compat_l root _ _ ltac:(lra) K1). pose proof (Rmult_le_compat_l root _ _ ltac:(lra) K2). lra.
  - assert (0 <= root / cos (rk_alpha r) * (1 - (sin (rk_alpha r) * l + m))) by (apply Rmult_le_pos; lra). lra.
  - intros Q. assert (Z : root / cos (rk_alpha r) * (1 - (sin (rk_alpha r) * l + m)) = 0) by lra. apply Rmult_integral in Z.
    rewrite PX, BOT, K4; [reflexivity|]. lra.
Qed.

Lemma seg_coord (f : vec -> R) a b p : (forall u v s, f (vadd u (smul s (vsub v u))) = f u + s * (f v - f u)) ->
  on_piece (Seg a b) p -> f a <= f b -> f a <= f p <= f b.
Proof.
  intros F (s & (S0 & S1) & ->) H. rewrite F. pose proof (Rmult_le_pos s (f b - f a) S0 ltac:(lra)).
  pose proof (Rmult_le_compat_r (f b - f a) s 1 ltac:(lra) S1). lra.
Qed.
Lemma seg_coord' (f : vec -> R) a b p : (forall u v s, f (vadd u (smul s (vsub v u))) = f u + s * (f v - f u)) ->
  on_piece (Seg a b) p -> f b <= f a -> f b <= f p <= f a.
Proof.
  intros F K H. pose proof (seg_coord (fun v => - f v) a b p) as Q. cbn beta in Q.
  assert (- f a <= - f p <= - f b); [apply Q; [intros; rewrite F; ring|exact K|lra]|lra].
Qed.
Lemma vx_affine u v s : vx (vadd u (smul s (vsub v u))) = vx u + s * (vx v - vx u).
Proof. vec_simpl; ring. Qed.
Lemma vy_affine u v s : vy (vadd u (smul s (vsub v u))) = vy u + s * (vy v - vy u).
Proof. vec_simpl; ring. Qed.

(** A point of the straight flank is on the outline exactly if it lies between the two fillets. *)
Theorem C114_flank_kept r tip root w s : usable_rack r -> 0 <= tip -> 0 <= root -> rk_outline r tip root w ->
  (flank_bottom r root <= rack_level r s <= flank_top r tip <-> exists x, In x w /\ on_piece x (rk_line r s)).
Proof.
  intros U T R O. apply (C114_outline r tip root w U T R) in O. destruct O as ((RT & RR & RM) & ->). rewrite line_point.
  set (x := rack_level r s). pose proof (ur_height _ U) as HH. pose proof (usable_tan r U) as TT.
  assert (BT : flank_bottom r root <= flank_top r tip) by (unfold flank_top, flank_bottom; lra).
  assert (TA : flank_top r tip <= rk_add r).
  { unfold flank_top. destruct (Req_dec tip 0) as [->|N]; [rewrite reach_up_0; lra|]. pose proof (reach_up_pos r tip U ltac:(lra)). lra. }
  assert (BD : - rk_ded r <= flank_bottom r root).
  { unfold flank_bottom. destruct (Req_dec root 0) as [->|N]; [rewrite reach_up_0; lra|]. pose proof (reach_up_pos r root U ltac:(lra)). lra. }
  split.
  - intros (A & B). exists (Seg (flank_point r (flank_top r tip)) (flank_point r (flank_bottom r root))).
    split; [unfold rounded; apply in_or_app; right; left; reflexivity|].
    destruct (Req_dec (flank_top r tip) (flank_bottom r root)) as [Q|Q].
    + exists 0. split; [lra|]. replace x with (flank_top r tip) by lra. vec_ring.
    + exists ((flank_top r tip - x) / (flank_top r tip - flank_bottom r root)). split.
      * split; [apply Rmult_le_pos; [lra|apply Rlt_le, Rinv_0_lt_compat; lra]|].
        apply Rmult_le_reg_r with (flank_top r tip - flank_bottom r root); [lra|]. unfold Rdiv. rewrite Rmult_assoc, Rinv_l; lra.
      * unfold flank_point, half_tooth. apply vec_eq; vec_simpl; field; lra.
  - intros (y & I & ON). unfold rounded in I. apply in_app_or in I. destruct I as [I|[I|I]].
    + unfold tip_side in I. destruct (Rlt_dec 0 tip) as [P|P].
      * pose proof (reach_land_pos r tip U P) as RL. destruct I as [I|[I|[]]]; subst y.
        -- exfalso. specialize (RT P). pose proof (seg_coord' vx _ _ _ vx_affine ON ltac:(cbn [vx]; lra)) as QX.
           pose proof (seg_coord' vy _ _ _ vy_affine ON ltac:(cbn [vy]; lra)) as QY. cbn [vx vy flank_point] in QX, QY.
           replace x with (rk_add r) in QY by lra. fold (half_tip r) in QY. lra.
        -- destruct (tip_arc_facts r tip _ U P ON) as (_ & _ & K & _). cbn [flank_point vx vy] in K. rewrite (K eq_refl). lra.
      * destruct I as [I|[]]; subst y. replace tip with 0 in * by lra.
        assert (TE : flank_top r 0 = rk_add r) by (unfold flank_top; rewrite reach_up_0; ring).
        pose proof (seg_coord' vx _ _ _ vx_affine ON ltac:(cbn [flank_point vx]; lra)) as QX. cbn [flank_point vx] in QX. lra.
    + subst y. pose proof (seg_coord' vx _ _ _ vx_affine ON ltac:(cbn [flank_point vx]; lra)) as QX. cbn [flank_point vx] in QX. lra.
    + unfold root_side in I. destruct (Rlt_dec 0 root) as [P|P].
      * pose proof (reach_land_pos r root U P) as RL. specialize (RR P). destruct I as [I|[I|[]]]; subst y.
        -- destruct (root_arc_facts r root _ U P ON) as (_ & _ & K & _). cbn [flank_point vx vy] in K. rewrite (K eq_refl). lra.
        -- exfalso. pose proof (seg_coord' vx _ _ _ vx_affine ON ltac:(cbn [vx]; lra)) as QX.
           pose proof (seg_coord' vy _ _ _ vy_affine ON ltac:(cbn [vy]; lra)) as QY. cbn [vx vy flank_point] in QX, QY.
           replace x with (- rk_ded r) in QY by lra. fold (half_foot r) in QY. lra.
      * destruct I as [I|[]]; subst y. replace root with 0 in * by lra.
        assert (TE : flank_bottom r 0 = - rk_ded r) by (unfold flank_bottom; rewrite reach_up_0; ring).
        pose proof (seg_coord' vx _ _ _ vx_affine ON ltac:(cbn [flank_point vx]; lra)) as QX. cbn [flank_point vx] in QX. lra.
Qed.

(** No material is added above the root fillet and none taken away below the tip fillet: every point of the rounded
    outline lies within the heights of the tooth, above [flank_bottom] on or inside the sharp outline, below [flank_top] on or
    outside it. *)
Theorem C114_sides r tip root w p x : usable_rack r -> 0 <= tip -> 0 <= root -> 0 <= half_tip r -> half_foot r <= PI / 2 -> rk_outline r tip root w ->
  In x w -> on_piece x p ->
  - rk_ded r <= vx p <= rk_add r /\ - (PI / 2) <= vy p <= 0 /\
  (flank_bottom r root < vx p -> - half_tooth r (vx p) <= vy p) /\ (vx p < flank_top r tip -> vy p <= - half_tooth r (vx p)).
Proof.
  intros U T R HT HF O I ON. apply (C114_outline r tip root w U T R) in O. destruct O as ((RT & RR & RM) & ->).
  pose proof (ur_height _ U) as HH. pose proof (usable_tan r U) as TT. pose proof (usable_grow r U) as G. pose proof PI_RGT_0 as PP.
  assert (BT : flank_bottom r root <= flank_top r tip) by (unfold flank_top, flank_bottom; lra).
  assert (TA : flank_top r tip <= rk_add r).
  { unfold flank_top. destruct (Req_dec tip 0) as [->|N]; [rewrite reach_up_0; lra|]. pose proof (reach_up_pos r tip U ltac:(lra)). lra. }
  assert (BD : - rk_ded r <= flank_bottom r root).
  { unfold flank_bottom. destruct (Req_dec root 0) as [->|N]; [rewrite reach_up_0; lra|]. pose proof (reach_up_pos r root U ltac:(lra)). lra. }
  assert (MON : forall y, - rk_ded r <= y <= rk_add r -> half_tip r <= half_tooth r y <= half_foot r).
  { intros y Y. split; [rewrite half_at|rewrite half_at']; [assert (0 <= (rk_add r - y) * tan (rk_alpha r)) by (apply Rmult_le_pos; lra)|
      assert (0 <= (rk_ded r + y) * tan (rk_alpha r)) by (apply Rmult_le_pos; lra)]; lra. }
  assert (FL : forall a b q, on_piece (Seg (flank_point r a) (flank_point r b)) q -> vy q = - half_tooth r (vx q)).
  { intros a b q (s & _ & ->). rewrite vx_affine, vy_affine. unfold flank_point, half_tooth. cbn [vx vy]. ring. }
  unfold rounded in I. apply in_app_or in I. destruct I as [I|[I|I]].
  - unfold tip_side in I. destruct (Rlt_dec 0 tip) as [P|P].
    + pose proof (reach_land_pos r tip U P) as RL. specialize (RT P). destruct I as [I|[I|[]]]; subst x.
      * pose proof (seg_coord' vx _ _ _ vx_affine ON ltac:(cbn [vx]; lra)) as QX.
        pose proof (seg_coord' vy _ _ _ vy_affine ON ltac:(cbn [vy]; lra)) as QY. cbn [vx vy] in QX, QY.
        replace (vx p) with (rk_add r) by lra. fold (half_tip r). repeat split; intros; lra.
      * destruct (tip_arc_facts r tip p U P ON) as (K1 & K2 & _ & K3). pose proof (MON (vx p) ltac:(lra)). repeat split; intros; lra.
    + destruct I as [I|[]]; subst x. replace tip with 0 in * by lra.
      assert (TE : flank_top r 0 = rk_add r) by (unfold flank_top; rewrite reach_up_0; ring). rewrite TE in *.
      pose proof (seg_coord' vx _ _ _ vx_affine ON ltac:(cbn [flank_point vx]; lra)) as QX.
      pose proof (seg_coord' vy _ _ _ vy_affine ON ltac:(cbn [flank_point vy]; fold (half_tip r); lra)) as QY. cbn [flank_point vx vy] in QX, QY. fold (half_tip r) in QY.
      replace (vx p) with (rk_add r) by lra. fold (half_tip r). repeat split; intros; lra.
  - subst x. pose proof (FL _ _ _ ON) as Q. pose proof (seg_coord' vx _ _ _ vx_affine ON ltac:(cbn [flank_point vx]; lra)) as QX. cbn [flank_point vx] in QX.
    pose proof (MON (vx p) ltac:(lra)). repeat split; intros; lra.
  - unfold root_side in I. destruct (Rlt_dec 0 root) as [P|P].
    + pose proof (reach_land_pos r root U P) as RL. specialize (RR P). destruct I as [I|[I|[]]]; subst x.
      * destruct (root_arc_facts r root p U P ON) as (K1 & K2 & _ & K3). pose proof (MON (vx p) ltac:(lra)). repeat split; intros; lra.
      * pose proof (seg_coord' vx _ _ _ vx_affine ON ltac:(cbn [vx]; lra)) as QX.
        pose proof (seg_coord' vy _ _ _ vy_affine ON ltac:(cbn [vy]; lra)) as QY. cbn [vx vy] in QX, QY.
        replace (vx p) with (- rk_ded r) by lra. fold (half_foot r). repeat split; intros; lra.
    + destruct I as [I|[]]; subst x. replace root with 0 in * by lra.
      assert (TE : flank_bottom r 0 = - rk_ded r) by (unfold flank_bottom; rewrite reach_up_0; ring). rewrite TE in *.
      pose proof (seg_coord' vx _ _ _ vx_affine ON ltac:(cbn [flank_point vx]; lra)) as QX.
      pose proof (seg_coord' vy _ _ _ vy_affine ON ltac:(cbn [flank_point vy]; fold (half_foot r); lra)) as QY. cbn [flank_point vx vy] in QX, QY. fold (half_foot r) in QY.
      replace (vx p) with (- rk_ded r) by lra. fold (half_foot r). repeat split; intros; lra.
Qed.

(** Consecutive edges meet, and the outline runs from the middle of the tip to the middle of the gap. *)
Fixpoint linked (a : vec) (w : list piece) (b : vec) : Prop :=
  match w with [] => a = b | x :: l => p_start x = a /\ linked (p_end x) l b end.
Theorem C114_linked r tip root w : usable_rack r -> 0 <= tip -> 0 <= root -> rk_outline r tip root w ->
  linked (V (rk_add r) 0 0) w (V (- rk_ded r) (- (PI / 2)) 0).
Proof.
  intros U T R O. apply (C114_outline r tip root w U T R) in O. destruct O as (_ & ->). unfold rounded, tip_side, root_side.
  destruct (Rlt_dec 0 tip); destruct (Rlt_dec 0 root); cbn [app linked p_start p_end]; repeat split; reflexivity.
Qed.

(** The contact of C72 stays on the outline where it lies between the fillets, on both flanks. *)
Theorem C114_contact S n r0 A r z G al H tip root w : conjugate_rack S n r0 A r z G al H ->
  usable_rack r -> 0 <= tip -> 0 <= root -> rk_outline r tip root w ->
  exists m u u', norm u = 1 /\ norm u' = 1 /\ forall x k,
    (exists t p, lower_flank (turned S n x) n r0 A (m - k) t = vadd (rk_point (rack_moved r x) (IZR k * PI) z p) (smul G u) /\
       rk_module r * vx p = H - g_scale S * r0 * t * sin al /\
       (flank_bottom r root <= vx p <= flank_top r tip <-> exists e, In e w /\ on_piece e p)) /\
    (exists t p, upper_flank (turned S n x) n r0 A (m - k - 1) t = vsub (rk_point (rack_moved r x) (IZR k * PI) z (rk_mirror p)) (smul G u') /\
       rk_module r * vx p = H - g_scale S * r0 * t * sin al /\
       (flank_bottom r root <= vx p <= flank_top r tip <-> exists e, In e w /\ on_piece e p)).
Proof.
  intros (m & e & e' & u & B & u' & B' & N & N' & _ & _ & CT) U T R O.
  exists m, u, u'. split; [exact N|]. split; [exact N'|]. intros x k.
  assert (LX : forall s, vx (rk_line r s) = rack_level r s) by (intros s; rewrite line_point; reflexivity).
  assert (ML : forall s, rk_line (rack_moved r x) s = rk_line r s) by reflexivity.
  destruct (CT x k) as [(t & s & _ & E & _ & E2 & _) (t' & s' & _ & E' & _ & E2' & _)]. split.
  - exists t, (rk_line r s). split; [exact E2|]. rewrite LX. split; [exact E|]. apply C114_flank_kept; assumption.
  - exists t', (rk_line r s'). split; [exact E2'|]. rewrite LX. split; [exact E'|]. apply C114_flank_kept; assumption.
Qed.

(** The finished part is placed as the points of Rack.v are: the Euler angles handed to the CAD kernel give back the
    rack's orientation. *)
Theorem C114_placement r p : rotation (rk_orient r) -> rk_place_part r p = rk_place r p.
Proof.
  intros HR. unfold rk_place_part, rk_rotation, rk_place. pose proof (euler_as_euler _ HR) as E.
  destruct (as_euler_zyx (rk_orient r)) as [[a b] c]. unfold location_extrinsic_zyx. cbn [loc_rot]. rewrite !to_rad_deg, E.
  assert (Q : smul (rk_offset r) (smul rk_pitch UP) = smul (rk_offset r * rk_pitch) UP) by vec_ring. rewrite Q.
  generalize (mapp (rk_orient r) (smul (rk_module r) (vadd p (smul (rk_offset r * rk_pitch) UP)))). intros v. vec_ring.
Qed.

(** ** Examples *)
Lemma sqrt3_bounds : 17 / 10 < sqrt 3 < 18 / 10.
Proof.
  assert (S3 : sqrt 3 * sqrt 3 = 3) by (apply sqrt_sqrt; lra). assert (0 < sqrt 3) by (apply sqrt_lt_R0; lra). split; nra.
Qed.
Lemma tan_PI6_bounds : 55 / 100 < tan (PI / 6) < 59 / 100.
Proof.
  pose proof sqrt3_bounds. rewrite tan_PI6. split.
  - apply Rmult_lt_reg_r with (sqrt 3); [lra|]. unfold Rdiv. rewrite (Rmult_assoc 1), Rinv_l; lra.
  - apply Rmult_lt_reg_r with (sqrt 3); [lra|]. unfold Rdiv. rewrite (Rmult_assoc 1), Rinv_l; lra.
Qed.

(** A rack of 30 degrees with fillets 0.2 at the tip and 0.05 at the root. *)
Definition ex_rack : rack := mkRack 12 10 (PI / 6) ORIGIN 0 UNIT3X3 1 1 (6 / 5) 0 0 false.
Lemma ex_rack_usable : usable_rack ex_rack /\ 0 <= half_tip ex_rack /\ half_foot ex_rack <= PI / 2 /\ room ex_rack (1 / 5) (1 / 20).
Proof.
  pose proof tan_PI6_bounds as T. pose proof PI2_3_2 as P. pose proof PI_4 as P4. pose proof sqrt3_bounds as S.
  assert (HT : half_tip ex_rack = PI / 4 - tan (PI / 6)) by (unfold half_tip, half_tooth, ex_rack; cbn; ring).
  assert (HF : half_foot ex_rack = PI / 4 + tan (PI / 6) * (6 / 5)) by (unfold half_foot, half_tooth, ex_rack; cbn; ring).
  assert (RL : forall x, reach_land ex_rack x = x * tan (PI / 6)).
  { intros x. unfold reach_land, ex_rack. cbn [rk_alpha]. rewrite tan_PI6, sin_PI6, cos_PI6. field. lra. }
  assert (RU : forall x, reach_up ex_rack x = x * (1 / 2)) by (intros x; unfold reach_up, ex_rack; cbn [rk_alpha]; rewrite sin_PI6; field).
  split; [|split; [rewrite HT; lra|split; [rewrite HF; lra|]]].
  - constructor; rewrite ?HT, ?HF; cbn [ex_rack rk_alpha rk_add rk_ded]; lra.
  - unfold room. rewrite !RL, !RU, HT, HF. cbn [ex_rack rk_add rk_ded]. repeat split; intros; lra.
Qed.
Example C114_outline_example : rk_outline ex_rack (1 / 5) (1 / 20) (rounded ex_rack (1 / 5) (1 / 20)) /\
  ~ exists w, rk_outline ex_rack (1 / 5) 1 w.
Proof.
  destruct ex_rack_usable as (U & A & B & RM). split; [apply C114_outline; [exact U|lra|lra|split; [exact RM|reflexivity]]|].
  intros (w & O). apply (C114_outline _ _ _ _ U) in O; [|lra|lra]. destruct O as ((_ & K & _) & _). specialize (K ltac:(lra)).
  revert K. pose proof tan_PI6_bounds as T. pose proof PI_4 as P4. pose proof sqrt3_bounds as S. unfold reach_land, half_foot, half_tooth, ex_rack. cbn [rk_alpha rk_ded rk_backlash].
  replace (1 * (1 - sin (PI / 6)) / cos (PI / 6)) with (tan (PI / 6)) by (rewrite tan_PI6, sin_PI6, cos_PI6; field; lra).
  lra.
Qed.
Example C114_flank_kept_example : exists s, (rack_level ex_rack s = 0 /\ exists x, In x (rounded ex_rack (1 / 5) (1 / 20)) /\ on_piece x (rk_line ex_rack s)) /\
  ~ exists x, In x (rounded ex_rack (1 / 5) (1 / 20)) /\ on_piece x (rk_line ex_rack 1).
Proof.
  destruct ex_rack_usable as (U & A & B & RM). destruct C114_outline_example as (O & _).
  destruct (level_onto ex_rack 0 ltac:(cbn; lra)) as (s & E). exists s.
  assert (FT : flank_top ex_rack (1 / 5) = 9 / 10) by (unfold flank_top, reach_up, ex_rack; cbn [rk_alpha rk_add]; rewrite sin_PI6; field).
  assert (FB : flank_bottom ex_rack (1 / 20) = - (47 / 40)) by (unfold flank_bottom, reach_up, ex_rack; cbn [rk_alpha rk_ded]; rewrite sin_PI6; field).
  split; [split; [exact E|]|].
  - apply (C114_flank_kept ex_rack (1 / 5) (1 / 20) _ s U ltac:(lra) ltac:(lra) O). rewrite E, FT, FB. lra.
  - intros K. apply (C114_flank_kept ex_rack (1 / 5) (1 / 20) _ 1 U ltac:(lra) ltac:(lra) O) in K. rewrite FT in K. unfold rack_level in K. cbn in K. lra.
Qed.
Example C114_sides_example : usable_rack ex_rack /\ 0 <= half_tip ex_rack /\ half_foot ex_rack <= PI / 2 /\
  rk_outline ex_rack (1 / 5) (1 / 20) (rounded ex_rack (1 / 5) (1 / 20)) /\ exists x p, In x (rounded ex_rack (1 / 5) (1 / 20)) /\ on_piece x p /\ flank_top ex_rack (1 / 5) < vx p.
Proof.
  destruct ex_rack_usable as (U & A & B & RM). destruct C114_outline_example as (O & _).
  split; [exact U|]. split; [exact A|]. split; [exact B|]. split; [exact O|].
  exists (Seg (V 1 0 0) (V 1 (- half_tip ex_rack + reach_land ex_rack (1 / 5)) 0)), (V 1 0 0). split; [|split].
  - unfold rounded, tip_side. destruct (Rlt_dec 0 (1 / 5)) as [_|N]; [left; reflexivity|lra].
  - exists 0. split; [lra|vec_ring].
  - unfold flank_top, reach_up, ex_rack; cbn [rk_alpha rk_add vx]; rewrite sin_PI6. lra.
Qed.
Example C114_linked_example : linked (V 1 0 0) (rounded ex_rack (1 / 5) (1 / 20)) (V (- (6 / 5)) (- (PI / 2)) 0) /\ length (rounded ex_rack (1 / 5) (1 / 20)) = 5%nat.
Proof.
  destruct ex_rack_usable as (U & A & B & RM). destruct C114_outline_example as (O & _).
  split; [apply (C114_linked ex_rack (1 / 5) (1 / 20) _ U ltac:(lra) ltac:(lra) O)|]. unfold rounded, tip_side, root_side.
  destruct (Rlt_dec 0 (1 / 5)); [|lra]. destruct (Rlt_dec 0 (1 / 20)); [reflexivity|lra].
Qed.

(** The helical rack of C72's example with fillets 0.1 and 0.01 in its transverse section. *)
Lemma cos_atan_ge x : 0 <= x <= 7 / 10 -> 8 / 10 <= cos (atan x).
Proof.
  intros X. destruct (Rle_lt_dec (8 / 10) (cos (atan x))) as [L|L]; [exact L|exfalso].
  pose proof (atan_bound x) as AB. assert (C : 0 < cos (atan x)) by (apply cos_gt_0; lra).
  assert (T : sin (atan x) = x * cos (atan x)) by (transitivity (tan (atan x) * cos (atan x)); [unfold tan; field; lra|rewrite tan_atan; reflexivity]).
  pose proof (sin2_cos2 (atan x)) as Q. unfold Rsqr in Q. rewrite T in Q. set (c := cos (atan x)) in *.
  assert (CC : c * c <= 8 / 10 * (8 / 10)) by (apply Rmult_le_compat; lra).
  assert (XX : 0 <= x * x <= 7 / 10 * (7 / 10)) by (split; [apply Rmult_le_pos; lra|apply Rmult_le_compat; lra]).
  assert (CX : c * c * (1 + x * x) <= 8 / 10 * (8 / 10) * (1 + 7 / 10 * (7 / 10))) by (apply Rmult_le_compat; try lra; apply Rmult_le_pos; lra). lra.
Qed.
Example C114_contact_example : exists S n r0 A r z G al H w,
  conjugate_rack S n r0 A r z G al H /\ usable_rack r /\ rk_outline r (1 / 10) (1 / 100) w /\ 0 < G.
Proof.
  destruct C72_example as (s2 & r' & K). cbn zeta in K. destruct K as (RA & MT & _ & CJ & GP).
  destruct (mesh_to_meshed _ _ _ _ _ _ RA MT) as (_ & _ & _ & EA & E1 & E2 & _ & EK & _).
  do 4 eexists. exists r'. do 5 eexists. split; [exact CJ|].
  pose proof PI_RGT_0 as PP. pose proof PI2_3_2 as P. pose proof PI_4 as P4. pose proof sqrt3_bounds as S3.
  assert (T9 : 0 < tan (PI / 9)) by (apply tan_gt_0; lra).
  assert (T6 : tan (PI / 9) < tan (PI / 6)) by (apply tan_increasing; lra). pose proof tan_PI6_bounds as TB.
  assert (C6 : 0 < cos (PI / 6)) by (apply cos_gt_0; lra).
  assert (C6' : 85 / 100 < cos (PI / 6)) by (rewrite cos_PI6; lra).
  cbn [helical_rack_new rk_alpha rk_add rk_ded rk_backlash] in EA, E1, E2, EK.
  assert (X : 0 < tan (PI / 9) / cos (PI / 6) <= 7 / 10).
  { split; [apply Rdiv_lt_0_compat; lra|]. apply Rmult_le_reg_r with (cos (PI / 6)); [lra|]. unfold Rdiv. rewrite Rmult_assoc, Rinv_l; lra. }
  assert (TA : tan (rk_alpha r') = tan (PI / 9) / cos (PI / 6)) by (rewrite EA; apply tan_atan).
  assert (HT : half_tip r' = PI / 4 - tan (PI / 9) - 1 / 100).
  { unfold half_tip, half_tooth. rewrite TA, E1, EK. field. lra. }
  assert (HF : half_foot r' = PI / 4 + tan (PI / 9) * (5 / 4) - 1 / 100).
  { unfold half_foot, half_tooth. rewrite TA, E2, EK. field. lra. }
  assert (AP : 0 < rk_alpha r' < PI / 2).
  { rewrite EA. split; [rewrite <- atan_0; apply atan_increasing; lra|apply atan_bound]. }
  assert (U : usable_rack r').
  { constructor; rewrite ?HT, ?HF, ?E1, ?E2; try lra. }
  assert (C : 8 / 10 <= cos (rk_alpha r')) by (rewrite EA; apply cos_atan_ge; lra).
  assert (SN : 0 < sin (rk_alpha r')) by (apply sin_gt_0; lra).
  assert (RL : forall x, 0 < x -> reach_land r' x <= x * (5 / 4)).
  { intros x HX. unfold reach_land. apply Rmult_le_reg_r with (cos (rk_alpha r')); [lra|]. unfold Rdiv at 1. rewrite Rmult_assoc, Rinv_l by lra.
    assert (x * (8 / 10) <= x * cos (rk_alpha r')) by (apply Rmult_le_compat_l; lra).
    assert (0 <= x * sin (rk_alpha r')) by (apply Rmult_le_pos; lra). lra. }
  assert (RU : forall x, 0 < x -> reach_up r' x <= x) by (intros x HX; unfold reach_up; assert (0 <= x * sin (rk_alpha r')) by (apply Rmult_le_pos; lra); lra).
  split; [exact U|]. split; [|exact GP]. apply C114_outline; [exact U|lra|lra|]. split; [|reflexivity].
  pose proof (RL (1 / 10) ltac:(lra)). pose proof (RL (1 / 100) ltac:(lra)). pose proof (RU (1 / 10) ltac:(lra)). pose proof (RU (1 / 100) ltac:(lra)).
  unfold room. rewrite HT, HF, E1, E2. split; [intros _; lra|split; [intros _|]; lra].
Qed.
Example C114_placement_example : rk_place_part (mkRack 3 1 (PI / 9) (V 1 2 3) (1 / 2) (rotz 1) 2 1 1 0 0 false) (V 1 0 0) =
  rk_place (mkRack 3 1 (PI / 9) (V 1 2 3) (1 / 2) (rotz 1) 2 1 1 0 0 false) (V 1 0 0).
Proof. apply C114_placement. apply rotation_rotz. Qed.
