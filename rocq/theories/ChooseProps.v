(** Theorems about Choose.v (property C119). *)
From Coq Require Import Reals Lra Lia List Bool Arith ZArith Permutation.
From Verif Require Import Num Vec Coords Transform Params Interp Curve Chain GearMath Tooth Wrapper Info RefLines Profile Build Fillet Teeth Report Blank
  TransformProps RefLinesProps SpurProps CrownRackProps RisingLem OctoidProps OctoidLem OctoidFlankProps BlankProps Choose.
Import ListNotations.
Open Scope R_scope.

(** ** Sorting *)
Lemma insert_perm {A} (key : A -> R) x l : Permutation (key_insert key x l) (x :: l).
Proof.
  induction l as [|y l IH]; [reflexivity|]. cbn. destruct (Rle_dec (key x) (key y)); [reflexivity|].
  rewrite IH. apply perm_swap.
Qed.
Lemma sort_perm {A} (key : A -> R) l : Permutation (key_sort key l) l.
Proof. induction l as [|x l IH]; [reflexivity|]. cbn. rewrite insert_perm. constructor. exact IH. Qed.
(** The first [i] elements of the result have keys that are at most those of the others. *)
Fixpoint ordered {A} (key : A -> R) (l : list A) : Prop :=
  match l with [] => True | x :: r => (forall y, In y r -> key x <= key y) /\ ordered key r end.
Lemma insert_ordered {A} (key : A -> R) x l : ordered key l -> ordered key (key_insert key x l).
Proof.
  induction l as [|y l IH]; cbn; [intros _; split; [intros ? []|exact I]|].
  intros (Y & O). destruct (Rle_dec (key x) (key y)) as [L|N]; cbn.
  - split; [|split; assumption]. intros w [<-|W]; [exact L|]. specialize (Y w W). lra.
  - split; [|apply IH, O]. intros w W. apply (Permutation_in w (insert_perm key x l)) in W. destruct W as [<-|W]; [lra|apply Y, W].
Qed.
Lemma sort_ordered {A} (key : A -> R) l : ordered key (key_sort key l).
Proof. induction l as [|x l IH]; [exact I|]. apply insert_ordered, IH. Qed.

(** For external teeth the piece that is kept lies lowest, however many pieces there are; for ring gears it is one that lies
    above another one and, of two, the higher one.  Fewer than two pieces are an error. *)
Theorem C119_choice {A} (key : A -> R) (pieces : list A) :
  (choose_solid key false pieces = SplitFailed <-> (length pieces < 2)%nat) /\ (choose_solid key true pieces = SplitFailed <-> (length pieces < 2)%nat) /\
  (forall x, choose_solid key false pieces = Kept x -> In x pieces /\ forall y, In y pieces -> key x <= key y) /\
  (forall x, choose_solid key true pieces = Kept x -> exists w rest, Permutation pieces (w :: x :: rest) /\ key w <= key x /\ forall y, In y rest -> key x <= key y).
Proof.
  pose proof (sort_perm key pieces) as P. pose proof (sort_ordered key pieces) as O. pose proof (Permutation_length P) as L.
  unfold choose_solid. destruct (length pieces <? 2)%nat eqn:E.
  - apply Nat.ltb_lt in E. split; [tauto|]. split; [tauto|]. split; intros x K; discriminate K.
  - apply Nat.ltb_ge in E. rewrite <- L in E. destruct (key_sort key pieces) as [|w [|x r]]; [cbn in E; lia|cbn in E; lia|].
    split; [split; [discriminate|cbn in L; lia]|]. split; [split; [discriminate|cbn in L; lia]|]. destruct O as (OW & OX & _). split.
    + intros y K. injection K as <-. split; [apply (Permutation_in w P); left; reflexivity|]. intros y Y. apply (Permutation_in y (Permutation_sym P)) in Y.
      destruct Y as [<-|Y]; [lra|apply OW, Y].
    + intros y K. injection K as <-. exists w, r. split; [symmetry; exact P|]. split; [apply OW; left; reflexivity|exact OX].
Qed.
Example C119_choice_example : choose_solid (fun x => x) false [3; 1; 2] = Kept 1 /\ choose_solid (fun x => x) true [3; 1] = Kept 3 /\ choose_solid (fun x => x) true [3] = SplitFailed.
Proof.
  split; [|split; [|reflexivity]].
  - destruct (C119_choice (fun x : R => x) [3; 1; 2]) as (F & _ & S & _). destruct (choose_solid (fun x => x) false [3; 1; 2]) as [x|] eqn:E.
    + destruct (S x eq_refl) as (I & M). pose proof (M 1 ltac:(cbn; tauto)). f_equal. destruct I as [<-|[<-|[<-|[]]]]; lra.
    + exfalso. destruct F as [F _]. specialize (F eq_refl). cbn in F. lia.
  - destruct (C119_choice (fun x : R => x) [3; 1]) as (_ & F & _ & S). destruct (choose_solid (fun x => x) true [3; 1]) as [x|] eqn:E.
    + destruct (S x eq_refl) as (w & rest & P & M & _). f_equal. pose proof (Permutation_length P) as L. destruct rest; [|cbn in L; lia].
      apply Permutation_length_2_inv in P. destruct P as [P|P]; injection P as E1 E2; subst; lra.
    + exfalso. destruct F as [F _]. specialize (F eq_refl). cbn in F. lia.
Qed.

Lemma pair_choice (g s : pset * R) : snd g < snd s -> forall pieces, Permutation pieces [g; s] ->
  choose_solid snd false pieces = Kept g /\ choose_solid snd true pieces = Kept s.
Proof.
  intros L pieces P. destruct (C119_choice snd pieces) as (F0 & F1 & S0 & S1). pose proof (Permutation_length P) as LP. cbn in LP. split.
  - destruct (choose_solid snd false pieces) as [x|]; [|destruct F0 as [F0 _]; specialize (F0 eq_refl); lia].
    destruct (S0 x eq_refl) as (I & M). f_equal. apply (Permutation_in x P) in I. destruct I as [<-|[<-|[]]]; [reflexivity|].
    specialize (M g (Permutation_in g (Permutation_sym P) (or_introl eq_refl))). lra.
  - destruct (choose_solid snd true pieces) as [x|]; [|destruct F1 as [F1 _]; specialize (F1 eq_refl); lia].
    destruct (S1 x eq_refl) as (w & rest & Q & M & _). f_equal. rewrite P in Q. pose proof (Permutation_length Q) as LQ. destruct rest; [|cbn in LQ; lia].
    apply Permutation_length_2_inv in Q. destruct Q as [Q|Q]; injection Q as E1 E2; subst; [reflexivity|lra].
Qed.

(** ** Distances and cone angles seen from the apex *)
(** Negative for the points inside the cone of half angle [b] about the axis below the point at height [a], positive outside. *)
Definition cone_sign (a b : R) (p : vec) : R := axial p * cos b - (a - vz p) * sin b.
Definition from_apex (a : R) (p : vec) : R := norm (vsub p (V 0 0 a)).
Lemma axial_facts a p : 0 <= axial p /\ 0 <= from_apex a p /\ from_apex a p * from_apex a p = axial p * axial p + (a - vz p) * (a - vz p).
Proof.
  unfold axial, from_apex. split; [apply norm_nonneg|]. split; [apply norm_nonneg|]. rewrite !norm_sqr. destruct p. vec_simpl. ring.
Qed.
Lemma sq_le x y : 0 <= y -> x * x <= y * y -> x <= y.
Proof. intros Y E. destruct (Rle_dec x y) as [|N]; [assumption|]. exfalso. assert (y * y < x * x) by (apply Rmult_le_0_lt_compat; lra). lra. Qed.
Lemma sq_eq x y : 0 <= x -> 0 <= y -> x * x = y * y -> x = y.
Proof. intros X Y E. apply Rle_antisym; apply sq_le; lra. Qed.
Lemma cone_inside a c p : 0 < c < PI / 2 -> cone_sign a c p <= 0 -> from_apex a p * cos c <= a - vz p.
Proof.
  intros C E. destruct (axial_facts a p) as (A & D & Q). unfold cone_sign in E.
  assert (CC : 0 < cos c) by (apply cos_gt_0; lra). assert (SC : 0 < sin c) by (apply sin_gt_0; pose proof PI_RGT_0; lra).
  set (x := axial p) in *. set (r := from_apex a p) in *. set (w := a - vz p) in *. pose proof (sc1 c) as TR.
  assert (XC : 0 <= x * cos c) by (apply Rmult_le_pos; lra).
  assert (W : 0 <= w). { destruct (Rle_dec 0 w) as [|N]; [assumption|]. assert (w * sin c < 0 * sin c) by (apply Rmult_lt_compat_r; lra). lra. }
  apply sq_le; [exact W|]. assert (K : x * cos c * (x * cos c) <= w * sin c * (w * sin c)) by (apply Rmult_le_compat; lra).
  replace (r * cos c * (r * cos c)) with (r * r * (cos c * cos c)) by ring. rewrite Q.
  replace (w * w) with (w * w * (sin c * sin c + cos c * cos c)) at 2 by (rewrite TR; ring). lra.
Qed.
Lemma cone_outside a c p : 0 < c < PI / 2 -> 0 <= cone_sign a c p -> a - vz p <= from_apex a p * cos c.
Proof.
  intros C E. destruct (axial_facts a p) as (A & D & Q). unfold cone_sign in E.
  assert (CC : 0 < cos c) by (apply cos_gt_0; lra). assert (SC : 0 < sin c) by (apply sin_gt_0; pose proof PI_RGT_0; lra).
  set (x := axial p) in *. set (r := from_apex a p) in *. set (w := a - vz p) in *. pose proof (sc1 c) as TR.
  assert (RC : 0 <= r * cos c) by (apply Rmult_le_pos; lra).
  destruct (Rle_dec w 0) as [W|W]; [lra|]. apply sq_le; [exact RC|].
  assert (WS : 0 <= w * sin c) by (apply Rmult_le_pos; lra).
  assert (K : w * sin c * (w * sin c) <= x * cos c * (x * cos c)) by (apply Rmult_le_compat; lra).
  replace (r * cos c * (r * cos c)) with (r * r * (cos c * cos c)) by ring. rewrite Q.
  replace (w * w) with (w * w * (sin c * sin c + cos c * cos c)) at 1 by (rewrite TR; ring). lra.
Qed.
Lemma extent_le X lo hi p : z_extent X lo hi -> X p -> lo <= vz p <= hi.
Proof. intros (H & _). apply H. Qed.
Lemma extent_hi X lo hi m : z_extent X lo hi -> (forall p, X p -> vz p <= m) -> hi <= m.
Proof. intros (_ & _ & H) B. destruct (Rle_dec hi m) as [|N]; [assumption|]. destruct (H (hi - m) ltac:(lra)) as (p & P & K). specialize (B p P). lra. Qed.
Lemma extent_lo X lo hi m : z_extent X lo hi -> (forall p, X p -> m <= vz p) -> m <= lo.
Proof. intros (_ & H & _) B. destruct (Rle_dec m lo) as [|N]; [assumption|]. destruct (H (m - lo) ltac:(lra)) as (p & P & K). specialize (B p P). lra. Qed.

(** ** External teeth *)
(** The blank [X] is cut by a surface that runs between the cones of half angles [lo] and [hi] through the points between
    the two spheres [shl]: what is inside the inner cone or not between the spheres is in [G] only, what is between the spheres
    and outside the outer cone is in [W] only. *)
Record cut_apart (X shl : pset) (a lo hi : R) (G W : pset) : Prop := {
  ca_G : forall p, G p -> X p; ca_W : forall p, W p -> X p;
  ca_in : forall p, X p -> (shl p -> cone_sign a lo p < 0) -> G p /\ ~ W p;
  ca_out : forall p, X p -> shl p -> 0 < cone_sign a hi p -> W p /\ ~ G p }.

Lemma external_lower a S b z0 z1 lo hi g w : 0 < b < PI / 2 -> 0 < lo -> lo <= hi <= PI / 2 -> z0 < z1 < S ->
  cut_apart (blank a S b z0 z1) (fun p => S - z1 <= from_apex a p <= S - z0) a lo hi (fst g) (fst w) ->
  measured g -> measured w -> snd g < snd w.
Proof.
  intros B LO HI Z [CG CW CI CO] (lg & hg & EG & ->) (lw & hw & EW & ->). pose proof PI_RGT_0.
  assert (CB : 0 < cos b) by (apply cos_gt_0; lra). assert (SB : 0 < sin b) by (apply sin_gt_0; lra).
  assert (SL : 0 < sin lo) by (apply sin_gt_0; lra). assert (SH : 0 < sin hi) by (apply sin_gt_0; lra).
  assert (CH : 0 <= cos hi) by (apply cos_ge_0; lra).
  assert (P0 : 0 < (S - z0) * cos b) by (apply Rmult_lt_0_compat; lra). assert (P1 : 0 < (S - z1) * cos b) by (apply Rmult_lt_0_compat; lra).
  assert (P01 : 0 < (z1 - z0) * cos b) by (apply Rmult_lt_0_compat; lra).
  assert (AX : forall z, axial (V 0 0 z) = 0) by (intros z; unfold axial; cbn [vx vy]; apply norm_eq; [lra|vec_simpl; ring]).
  set (l0 := a - (S - z0) * cos b) in *.
  assert (LG : lg <= l0).
  { apply (extent_le _ _ _ (V 0 0 l0) EG). apply CI.
    - split; [cbn [vz]; unfold l0; lra|]. right. cbn [vz]. rewrite AX. split; [unfold l0; lra|]. rewrite Rmult_0_l. apply Rmult_le_pos; [unfold l0; lra|lra].
    - intros _. unfold cone_sign. rewrite AX. cbn [vz]. assert (0 < (a - l0) * sin lo) by (apply Rmult_lt_0_compat; unfold l0; lra). lra. }
  assert (HG : hg <= a).
  { apply (extent_hi _ _ _ a EG). intros p Gp. destruct (Rle_dec (vz p) a) as [|N]; [assumption|]. exfalso. destruct (CG p Gp) as (L & [SHL|(U & _)]); [|lra].
    assert (K : 0 < cone_sign a hi p).
    { unfold cone_sign. destruct (axial_facts a p) as (A & _). assert (0 <= axial p * cos hi) by (apply Rmult_le_pos; lra).
      assert (0 < (vz p - a) * sin hi) by (apply Rmult_lt_0_compat; lra). lra. }
    destruct (CO p (CG p Gp) SHL K) as (_ & NG). contradiction. }
  assert (LW : l0 <= lw) by (apply (extent_lo _ _ _ l0 EW); intros p Wp; destruct (CW p Wp) as (L & _); exact L).
  assert (HW : a + (S - z0) <= hw).
  { assert (D : from_apex a (V 0 0 (a + (S - z0))) = S - z0) by (unfold from_apex; apply norm_eq; [lra|vec_simpl; ring]).
    apply (extent_le _ _ _ (V 0 0 (a + (S - z0))) EW). apply CO.
    - split; [cbn [vz]; unfold l0; lra|]. left. change (S - z1 <= from_apex a (V 0 0 (a + (S - z0))) <= S - z0). rewrite D. lra.
    - cbn beta. rewrite D. lra.
    - unfold cone_sign. rewrite AX. cbn [vz]. assert (0 < (S - z0) * sin hi) by (apply Rmult_lt_0_compat; lra). lra. }
  lra.
Qed.

(** For external teeth the piece that is kept is the gear: whatever surface between the cones through the roots and the tips
    of the teeth cuts the blank in two, the piece on the side of the axis is chosen. *)
Theorem C119_external sv fs ts g n gm z0 z1 p0 p1 gear waste pieces : bevel_gear g n gm -> 0 < gm < PI / 2 -> ip_inside (ig_in g) = false ->
  ig_profile sv fs ts g z0 = Ok p0 -> ig_profile sv fs ts g z1 = Ok p1 -> let rp := IZR n / 2 in let S := slant rp gm in let ip := ig_in g in
  z0 < z1 -> z1 < S -> let lo := gm - (ip_ded ip - ip_shift ip) / S in let hi := gm + (ip_add ip + ip_shift ip) / S in
  0 < lo -> lo <= hi <= PI / 2 ->
  let '(c0, r0) := k_sphere_data (ig_core g) g_default z0 in let '(c1, r1) := k_sphere_data (ig_core g) g_default z1 in
  cut_apart (ref_solid (ig_core g) p0 p1 z0 z1) (shell c0 r0 c1 r1) (rp / tan gm) lo hi (fst gear) (fst waste) ->
  measured gear -> measured waste -> Permutation pieces [gear; waste] ->
  choose_solid snd false pieces = Kept gear.
Proof.
  intros H G IN EP0 EP1 rp S ip Z01 Z1 lo hi LO HI. rewrite !(sphere_data_default g n gm _ H G). fold rp S. rewrite !(Rabs_right (S - _)) by lra.
  intros CA MG MW P. apply (pair_choice gear waste); [|exact P]. destruct (C112_blank_shape sv fs ts g n gm z0 z1 p0 p1 H G IN EP0 EP1 Z01 Z1) as (B & SH).
  fold rp S in B, SH. refine (external_lower (rp / tan gm) S _ z0 z1 lo hi gear waste _ LO HI (conj Z01 Z1) _ MG MW); [split; [apply B|lra]|].
  destruct CA as [CG CW CI CO]. fold rp S in CG, CW, CI, CO.
  assert (SE : forall p, S - z1 <= from_apex (rp / tan gm) p <= S - z0 <-> shell (V 0 0 (rp / tan gm)) (S - z0) (V 0 0 (rp / tan gm)) (S - z1) p).
  { intros p. unfold shell, union, ball, from_apex. split.
    - intros K. split; [left; lra|]. intros (_ & K'). lra.
    - intros (U & N). split; [|destruct U; lra]. destruct (Rle_dec (S - z1) (norm (vsub p (V 0 0 (rp / tan gm))))) as [|NN]; [assumption|]. exfalso. apply N. split; lra. }
  constructor.
  - intros p Q. apply SH, CG, Q.
  - intros p Q. apply SH, CW, Q.
  - intros p Q K. apply CI; [apply SH, Q|]. intros Q'. apply K, SE, Q'.
  - intros p Q K K'. apply CO; [apply SH, Q|apply SE, K|exact K'].
Qed.

(** ** Ring gears *)
(** Between the spheres and within the cone of half angle [b]. *)
Definition ring_blank (a S b z0 z1 : R) : pset := fun p => S - z1 <= from_apex a p <= S - z0 /\ cone_sign a b p <= 0.
(** The rest between the spheres. *)
Definition ring_rest (a S b z0 z1 : R) : pset := fun p => S - z1 <= from_apex a p <= S - z0 /\ 0 <= cone_sign a b p.
Lemma ring_higher a S b z0 z1 lo hi w g : 0 < lo -> lo <= hi < b -> b < PI / 2 -> z0 < z1 < S ->
  cut_apart (ring_blank a S b z0 z1) (fun p => S - z1 <= from_apex a p <= S - z0) a lo hi (fst w) (fst g) ->
  measured w -> measured g -> snd w < snd g.
Proof.
  intros LO HI B Z [CW CG CI CO] (lw & hw & EW & ->) (lg & hg & EG & ->). pose proof PI_RGT_0.
  assert (AX : forall z, axial (V 0 0 z) = 0) by (intros z; unfold axial; cbn [vx vy]; apply norm_eq; [lra|vec_simpl; ring]).
  assert (LW : lw <= a - (S - z0)).
  { assert (D : from_apex a (V 0 0 (a - (S - z0))) = S - z0) by (unfold from_apex; apply norm_eq; [lra|vec_simpl; ring]).
    assert (SG : forall c, 0 < c < PI -> cone_sign a c (V 0 0 (a - (S - z0))) < 0).
    { intros c C. unfold cone_sign. rewrite AX. cbn [vz]. assert (0 < (S - z0) * sin c) by (apply Rmult_lt_0_compat; [lra|apply sin_gt_0; lra]). lra. }
    apply (extent_le _ _ _ (V 0 0 (a - (S - z0))) EW). apply CI; [|intros _; apply SG; lra]. split; [rewrite D; lra|]. left. apply SG. lra. }
  assert (HW : hw <= a - (S - z1) * cos hi).
  { apply (extent_hi _ _ _ _ EW). intros p P. destruct (CW p P) as (SHL & _).
    assert (K : cone_sign a hi p <= 0). { destruct (Rle_dec (cone_sign a hi p) 0) as [|N]; [assumption|]. destruct (CO p (CW p P) SHL ltac:(lra)). contradiction. }
    pose proof (cone_inside a hi p ltac:(lra) K) as Q. assert (CH : 0 < cos hi) by (apply cos_gt_0; lra).
    assert ((S - z1) * cos hi <= from_apex a p * cos hi) by (apply Rmult_le_compat_r; lra). lra. }
  assert (LG : a - (S - z0) * cos lo <= lg).
  { apply (extent_lo _ _ _ _ EG). intros p P. destruct (CG p P) as (SHL & _).
    assert (K : 0 <= cone_sign a lo p). { destruct (Rle_dec 0 (cone_sign a lo p)) as [|N]; [assumption|]. destruct (CI p (CG p P) ltac:(intros _; lra)). contradiction. }
    pose proof (cone_outside a lo p ltac:(lra) K) as Q. assert (CH : 0 < cos lo) by (apply cos_gt_0; lra).
    assert (from_apex a p * cos lo <= (S - z0) * cos lo) by (apply Rmult_le_compat_r; lra). lra. }
  assert (HG : a - (S - z1) * cos b <= hg).
  { set (q := V ((S - z1) * sin b) 0 (a - (S - z1) * cos b)). assert (SB : 0 < sin b) by (apply sin_gt_0; lra). pose proof (sc1 b) as TR.
    assert (AQ : axial q = (S - z1) * sin b) by (unfold axial, q; apply norm_eq; [apply Rmult_le_pos; lra|vec_simpl; ring]).
    assert (D : from_apex a q = S - z1).
    { unfold from_apex, q. apply norm_eq; [lra|]. vec_simpl. transitivity ((S - z1) * (S - z1) * (sin b * sin b + cos b * cos b)); [ring|rewrite TR; ring]. }
    change (a - (S - z1) * cos b) with (vz q). apply (extent_le _ _ _ q EG). apply CO; [|rewrite D; lra|].
    - split; [rewrite D; lra|]. right. unfold cone_sign. rewrite AQ. unfold q. cbn [vz]. ring.
    - unfold cone_sign. rewrite AQ. unfold q. cbn [vz]. replace (_ - _) with ((S - z1) * sin (b - hi)) by (rewrite sin_minus; ring).
      apply Rmult_lt_0_compat; [lra|apply sin_gt_0; lra]. }
  assert (C0 : cos lo < 1) by (rewrite <- cos_0; apply cos_decreasing_1; lra).
  assert (C1 : cos b < cos hi) by (apply cos_decreasing_1; lra).
  assert ((S - z0) * cos lo < (S - z0) * 1) by (apply Rmult_lt_compat_l; lra).
  assert ((S - z1) * cos b < (S - z1) * cos hi) by (apply Rmult_lt_compat_l; lra). lra.
Qed.

(** Two points can be joined inside a set by a curve. *)
Definition joined (X : pset) (p q : vec) : Prop := exists f : R -> vec,
  continuity (fun t => vx (f t)) /\ continuity (fun t => vy (f t)) /\ continuity (fun t => vz (f t)) /\
  f 0 = p /\ f 1 = q /\ forall t, 0 <= t <= 1 -> X (f t).
(** Points by distance from the apex, angle to the axis and angle around the axis. *)
Definition spherical (a r t f : R) : vec := V (r * sin t * cos f) (r * sin t * sin f) (a - r * cos t).
Lemma spherical_facts a b r t f : 0 <= r -> 0 <= t <= PI ->
  from_apex a (spherical a r t f) = r /\ cone_sign a b (spherical a r t f) = r * sin (t - b).
Proof.
  intros R T. assert (ST : 0 <= sin t) by (apply sin_ge_0; lra). pose proof (sc1 t) as T1. pose proof (sc1 f) as F1. unfold from_apex, cone_sign, spherical. split.
  - apply norm_eq; [exact R|]. vec_simpl. transitivity (r * r * (sin t * sin t * (sin f * sin f + cos f * cos f) + cos t * cos t)); [ring|rewrite F1].
    transitivity (r * r * (sin t * sin t + cos t * cos t)); [ring|rewrite T1; ring].
  - assert (A : axial (V (r * sin t * cos f) (r * sin t * sin f) (a - r * cos t)) = r * sin t).
    { unfold axial. apply norm_eq; [apply Rmult_le_pos; assumption|]. vec_simpl. transitivity (r * r * (sin t * sin t) * (sin f * sin f + cos f * cos f)); [ring|rewrite F1; ring]. }
    rewrite A. cbn [vz]. rewrite sin_minus. ring.
Qed.
Lemma spherical_ex a p : 0 < from_apex a p -> exists t f, 0 <= t <= PI /\ p = spherical a (from_apex a p) t f.
Proof.
  intros D. destruct (axial_facts a p) as (A & _ & Q). set (r := from_apex a p) in *. set (c := (a - vz p) / r).
  assert (CB : -1 <= c <= 1).
  { assert (E : (a - vz p) * (a - vz p) <= r * r) by (assert (0 <= axial p * axial p) by (apply Rmult_le_pos; assumption); lra).
    assert (U : a - vz p <= r) by (apply sq_le; lra). assert (L : - (a - vz p) <= r) by (apply sq_le; [lra|]; replace (- (a - vz p) * - (a - vz p)) with ((a - vz p) * (a - vz p)) by ring; exact E).
    unfold c. split; apply Rmult_le_reg_r with r; try exact D; unfold Rdiv; rewrite Rmult_assoc, Rinv_l by lra; lra. }
  exists (acos c), (arctan2 (vy p) (vx p)). split; [apply acos_bound|]. destruct (arctan2_cos_sin (vy p) (vx p)) as (C & S).
  assert (CE : r * cos (acos c) = a - vz p) by (rewrite cos_acos by exact CB; unfold c; field; lra).
  assert (SE : r * sin (acos c) = axial p).
  { apply sq_eq; [apply Rmult_le_pos; [lra|apply sin_ge_0; apply acos_bound]|exact A|]. pose proof (sc1 (acos c)) as T.
    replace (r * sin (acos c) * (r * sin (acos c))) with (r * r * (sin (acos c) * sin (acos c) + cos (acos c) * cos (acos c)) - r * cos (acos c) * (r * cos (acos c))) by ring.
    rewrite T, CE. lra. }
  assert (AE : axial p = sqrt (vx p * vx p + vy p * vy p)) by (unfold axial, norm; f_equal; destruct p; vec_simpl; ring).
  unfold spherical. rewrite SE, CE, AE, C, S. destruct p. apply vec_eq; cbn; ring.
Qed.
Lemma on_side a S b z0 z1 p : 0 < b < PI -> z0 < z1 < S -> S - z1 <= from_apex a p <= S - z0 -> cone_sign a b p = 0 ->
  cone_side ((S - z0) * sin b) ((S - z1) * sin b) ((z1 - z0) * cos b) (a - (S - z0) * cos b) p.
Proof.
  intros B Z D E. destruct (axial_facts a p) as (A & D0 & Q). unfold cone_sign in E. set (x := axial p) in *. set (r := from_apex a p) in *.
  assert (SB : 0 < sin b) by (apply sin_gt_0; lra). pose proof (sc1 b) as TR.
  assert (X : x = r * sin b).
  { apply sq_eq; [exact A|apply Rmult_le_pos; lra|]. assert (E' : x * cos b = (a - vz p) * sin b) by lra.
    replace (r * sin b * (r * sin b)) with (r * r * (sin b * sin b)) by ring. rewrite Q.
    replace ((x * x + (a - vz p) * (a - vz p)) * (sin b * sin b)) with (x * x * (sin b * sin b) + (a - vz p) * sin b * ((a - vz p) * sin b)) by ring. rewrite <- E'.
    transitivity (x * x * (sin b * sin b + cos b * cos b)); [rewrite TR; ring|ring]. }
  assert (W : a - vz p = r * cos b) by (apply Rmult_eq_reg_r with (sin b); [|lra]; rewrite X in E; lra).
  exists ((S - z0 - r) / (z1 - z0)). split; [|split].
  - split; apply Rmult_le_reg_r with (z1 - z0); try lra; unfold Rdiv; rewrite Rmult_assoc, Rinv_l by lra; lra.
  - transitivity (a - r * cos b); [lra|]. field. lra.
  - fold x. rewrite X. field. lra.
Qed.
Lemma side_on a S b z0 z1 p : 0 < b < PI -> z0 < z1 < S ->
  cone_side ((S - z0) * sin b) ((S - z1) * sin b) ((z1 - z0) * cos b) (a - (S - z0) * cos b) p -> cone_sign a b p = 0.
Proof. intros B Z (u & U & E & A). unfold cone_sign. rewrite A, E. ring. Qed.

(** The face of the frustum through the outside circles divides the space between the spheres into what is within the cone and
    what is outside of it: two points off the face can be joined without crossing it exactly if they are on the same side. *)
Theorem C119_ring_split a S b z0 z1 p q : 0 < b < PI -> z0 < z1 < S ->
  let shl := fun p => S - z1 <= from_apex a p <= S - z0 in
  let face := cone_side ((S - z0) * sin b) ((S - z1) * sin b) ((z1 - z0) * cos b) (a - (S - z0) * cos b) in
  shl p -> ~ face p -> shl q -> ~ face q ->
  (joined (fun x => shl x /\ ~ face x) p q <-> (cone_sign a b p < 0 /\ cone_sign a b q < 0) \/ (0 < cone_sign a b p /\ 0 < cone_sign a b q)).
Proof.
  intros B Z shl face SP NP SQ NQ.
  assert (NZ : forall x, shl x -> ~ face x -> cone_sign a b x <> 0) by (intros x X N E; apply N, on_side; assumption).
  split.
  - intros (f & CX & CY & CZ & F0 & F1 & IN).
    set (s := fun t => cone_sign a b (f t)).
    assert (CS : continuity s).
    { assert (CA : continuity (fun t => axial (f t))).
      { intros t. change (continuity_pt (comp sqrt (fun x => vx (f x) * vx (f x) + vy (f x) * vy (f x) + 0 * 0)) t). apply continuity_pt_comp.
        - apply continuity_pt_plus; [|apply continuity_pt_const; intros ? ?; reflexivity].
          apply (continuity_pt_plus (fun x => vx (f x) * vx (f x)) (fun x => vy (f x) * vy (f x))); [apply (continuity_pt_mult (fun x => vx (f x)) (fun x => vx (f x)))|apply (continuity_pt_mult (fun x => vy (f x)) (fun x => vy (f x)))]; try apply CX; apply CY.
        - apply continuity_pt_sqrt. pose proof (Rle_0_sqr (vx (f t))). pose proof (Rle_0_sqr (vy (f t))). unfold Rsqr in *. lra. }
      intros t. unfold s, cone_sign. apply (continuity_pt_minus (fun t => axial (f t) * cos b) (fun t => (a - vz (f t)) * sin b)).
      - apply (continuity_pt_mult (fun t => axial (f t)) (fun _ => cos b)); [apply CA|apply continuity_pt_const; intros ? ?; reflexivity].
      - apply (continuity_pt_mult (fun t => a - vz (f t)) (fun _ => sin b)); [|apply continuity_pt_const; intros ? ?; reflexivity]. apply (continuity_pt_minus (fun _ => a) (fun t => vz (f t))); [apply continuity_pt_const; intros ? ?; reflexivity|apply CZ]. }
    assert (S0 : s 0 = cone_sign a b p) by (unfold s; rewrite F0; reflexivity). assert (S1 : s 1 = cone_sign a b q) by (unfold s; rewrite F1; reflexivity).
    destruct (Rle_dec (s 0 * s 1) 0) as [L|N].
    + exfalso. destruct (IVT_cor s 0 1 CS ltac:(lra) L) as (t & T & E). destruct (IN t T) as (I1 & I2). apply (NZ _ I1 I2). exact E.
    + rewrite S0, S1 in N. pose proof (NZ p SP NP). pose proof (NZ q SQ NQ).
      destruct (Rlt_dec (cone_sign a b p) 0) as [Lp|Gp]; destruct (Rlt_dec (cone_sign a b q) 0) as [Lq|Gq].
      * left. lra.
      * exfalso. apply N. assert (0 <= - cone_sign a b p * cone_sign a b q) by (apply Rmult_le_pos; lra). lra.
      * exfalso. apply N. assert (0 <= cone_sign a b p * - cone_sign a b q) by (apply Rmult_le_pos; lra). lra.
      * right. lra.
  - intros HS. unfold shl in SP, SQ.
    destruct (spherical_ex a p ltac:(lra)) as (tp & fp & TP & EP). destruct (spherical_ex a q ltac:(lra)) as (tq & fq & TQ & EQ).
    set (rp := from_apex a p) in *. set (rq := from_apex a q) in *.
    assert (GP : cone_sign a b p = rp * sin (tp - b)) by (rewrite EP; apply spherical_facts; [lra|exact TP]).
    assert (GQ : cone_sign a b q = rq * sin (tq - b)) by (rewrite EQ; apply spherical_facts; [lra|exact TQ]).
    assert (SG : forall r t, 0 < r -> 0 <= t <= PI -> (r * sin (t - b) < 0 -> t < b) /\ (0 < r * sin (t - b) -> b < t) /\ (t < b -> r * sin (t - b) < 0) /\ (b < t -> 0 < r * sin (t - b))).
    { intros r t R T. assert (K1 : t < b -> r * sin (t - b) < 0).
      { intros L. replace (t - b) with (- (b - t)) by ring. rewrite sin_neg. assert (0 < r * sin (b - t)) by (apply Rmult_lt_0_compat; [exact R|apply sin_gt_0; lra]). lra. }
      assert (K2 : b < t -> 0 < r * sin (t - b)) by (intros L; apply Rmult_lt_0_compat; [exact R|apply sin_gt_0; lra]).
      assert (K3 : t = b -> r * sin (t - b) = 0) by (intros ->; rewrite Rminus_diag_eq, sin_0 by reflexivity; ring).
      split; [|split; [|split; assumption]]; intros L; destruct (Rtotal_order t b) as [O|[O|O]]; try assumption; exfalso;
        [rewrite (K3 O) in L; lra|specialize (K2 O); lra|specialize (K1 O); lra|rewrite (K3 O) in L; lra]. }
    exists (fun t => spherical a (rp + t * (rq - rp)) (tp + t * (tq - tp)) (fp + t * (fq - fp))).
    split; [unfold spherical; cbn [vx vy vz]; reg|]. split; [unfold spherical; cbn [vx vy vz]; reg|]. split; [unfold spherical; cbn [vx vy vz]; reg|].
    split; [rewrite EP; f_equal; ring|]. split; [rewrite EQ; f_equal; ring|]. intros t T.
    assert (MX : forall x y l h, l <= x <= h -> l <= y <= h -> l <= x + t * (y - x) <= h).
    { intros x y l h X Y. assert (0 <= (1 - t) * (x - l)) by (apply Rmult_le_pos; lra). assert (0 <= t * (y - l)) by (apply Rmult_le_pos; lra).
      assert (0 <= (1 - t) * (h - x)) by (apply Rmult_le_pos; lra). assert (0 <= t * (h - y)) by (apply Rmult_le_pos; lra). lra. }
    pose proof (MX rp rq _ _ SP SQ) as RR. pose proof (MX tp tq _ _ TP TQ) as TT.
    set (r := rp + t * (rq - rp)) in *. set (th := tp + t * (tq - tp)) in *.
    destruct (spherical_facts a b r th (fp + t * (fq - fp)) ltac:(lra) TT) as (D & G).
    split; [unfold shl; rewrite D; exact RR|]. intros FA. apply side_on in FA; [|exact B|exact Z]. rewrite G in FA.
    destruct (SG rp tp ltac:(lra) TP) as (P1 & P2 & _). destruct (SG rq tq ltac:(lra) TQ) as (Q1 & Q2 & _). destruct (SG r th ltac:(lra) TT) as (_ & _ & R1 & R2).
    rewrite GP, GQ in HS. destruct HS as [(H1 & H2)|(H1 & H2)].
    + specialize (P1 H1). specialize (Q1 H2). assert (th < b).
      { unfold th. destruct (Rle_dec tp tq); [apply Rle_lt_trans with tq; [|exact Q1]|apply Rle_lt_trans with tp; [|exact P1]];
          [assert (0 <= (1 - t) * (tq - tp)) by (apply Rmult_le_pos; lra); lra|assert (0 <= t * (tp - tq)) by (apply Rmult_le_pos; lra); lra]. }
      specialize (R1 ltac:(assumption)). lra.
    + specialize (P2 H1). specialize (Q2 H2). assert (b < th).
      { unfold th. destruct (Rle_dec tp tq); [apply Rlt_le_trans with tp; [exact P2|]|apply Rlt_le_trans with tq; [exact Q2|]];
          [assert (0 <= t * (tq - tp)) by (apply Rmult_le_pos; lra); lra|assert (0 <= (1 - t) * (tp - tq)) by (apply Rmult_le_pos; lra); lra]. }
      specialize (R2 ltac:(assumption)). lra.
Qed.

(** ** Which part of the shell becomes the blank of a ring gear *)
(** The mirror image in the horizontal plane through the apex. *)
Definition mirrored (a : R) (X : pset) : pset := fun p => X (V (vx p) (vy p) (2 * a - vz p)).
(** [X] is part of [Y], and a ball of [Y] is not in [X]. *)
Definition proper_part (X Y : pset) : Prop := (forall p, X p -> Y p) /\ exists c e, 0 < e /\ forall p, norm (vsub p c) <= e -> Y p /\ ~ X p.
Lemma coord_le p c e : norm (vsub p c) <= e -> - e <= vx p - vx c <= e /\ - e <= vz p - vz c <= e.
Proof.
  intros H. pose proof (norm_nonneg (vsub p c)) as N. assert (Q : norm (vsub p c) * norm (vsub p c) <= e * e) by (apply Rmult_le_compat; lra).
  rewrite norm_sqr in Q. destruct p as [x y z], c as [x' y' z']. cbn [vx vy vz]. revert Q. vec_simpl. intros Q.
  pose proof (Rle_0_sqr (x - x')). pose proof (Rle_0_sqr (y - y')). pose proof (Rle_0_sqr (z - z')). unfold Rsqr in *.
  repeat split; [apply Ropp_le_cancel; rewrite Ropp_involutive| |apply Ropp_le_cancel; rewrite Ropp_involutive|]; apply sq_le; lra.
Qed.
Lemma ring_mirror a S b z0 z1 : 0 < b < PI / 2 -> z0 < z1 < S -> proper_part (mirrored a (ring_blank a S b z0 z1)) (ring_rest a S b z0 z1).
Proof.
  intros B Z. pose proof PI_RGT_0. assert (CB : 0 < cos b) by (apply cos_gt_0; lra). assert (SB : 0 < sin b) by (apply sin_gt_0; lra).
  assert (CB1 : cos b <= 1) by apply COS_bound. assert (SB1 : sin b <= 1) by apply SIN_bound.
  assert (MD : forall p, from_apex a (V (vx p) (vy p) (2 * a - vz p)) = from_apex a p) by (intros [x y z]; unfold from_apex, norm; f_equal; vec_simpl; ring).
  assert (MA : forall p, axial (V (vx p) (vy p) (2 * a - vz p)) = axial p) by reflexivity.
  split.
  - intros p (D & C). rewrite MD in D. split; [exact D|]. destruct (axial_facts a p) as (A & _).
    unfold cone_sign in *. rewrite MA in C. cbn [vz] in C. assert (0 <= axial p * cos b) by (apply Rmult_le_pos; lra). lra.
  - set (m := S - (z0 + z1) / 2). exists (V m 0 a).
    set (e := Rmin ((z1 - z0) / 2) (m * cos b / 4)).
    assert (M : 0 < m) by (unfold m; lra). assert (MC : 0 < m * cos b) by (apply Rmult_lt_0_compat; lra).
    assert (E0 : 0 < e) by (unfold e; apply Rmin_glb_lt; lra). assert (E1 : e <= (z1 - z0) / 2) by apply Rmin_l. assert (E2 : e <= m * cos b / 4) by apply Rmin_r.
    exists e. split; [exact E0|]. intros p P. destruct (coord_le p _ e P) as (X & W). cbn [vx vz] in X, W.
    assert (XA : vx p <= axial p).
    { destruct (axial_facts a p) as (A & _). apply sq_le; [exact A|]. unfold axial. rewrite norm_sqr. destruct p as [x y z]. cbn [vx]. vec_simpl. pose proof (Rle_0_sqr y). unfold Rsqr in *. lra. }
    assert (AC : (m - e) * cos b <= axial p * cos b) by (apply Rmult_le_compat_r; lra).
    assert (EC : e * cos b <= e * 1) by (apply Rmult_le_compat_l; lra). assert (ES : e * sin b <= e * 1) by (apply Rmult_le_compat_l; lra).
    assert (WS : (vz p - a) * sin b <= e * sin b) by (apply Rmult_le_compat_r; lra).
    assert (WS' : - e * sin b <= (vz p - a) * sin b) by (apply Rmult_le_compat_r; lra).
    assert (D : S - z1 <= from_apex a p <= S - z0).
    { assert (T1 : from_apex a p <= m + e).
      { apply sq_le; [lra|]. pose proof (norm_nonneg (vsub p (V m 0 a))) as N. assert (Q : norm (vsub p (V m 0 a)) * norm (vsub p (V m 0 a)) <= e * e) by (apply Rmult_le_compat; lra).
        unfold from_apex. rewrite norm_sqr in Q |- *. destruct p as [x y z]. cbn [vx vy vz] in X. revert Q. vec_simpl. intros Q.
        assert (m * x <= m * (m + e)) by (apply Rmult_le_compat_l; lra). lra. }
      destruct (axial_facts a p) as (A & F & Q). assert (AF : axial p <= from_apex a p) by (apply sq_le; [exact F|]; rewrite Q; pose proof (Rle_0_sqr (a - vz p)); unfold Rsqr in *; lra).
      unfold m in *. lra. }
    split.
    + split; [exact D|]. unfold cone_sign. lra.
    + intros (_ & C). unfold cone_sign in C. rewrite MA in C. cbn [vz] in C. lra.
Qed.
(** Of the two parts of the shell, the one within the cone is taken as the blank, provided volumes behave as volumes: a mirror
    image has the same volume, and a part that leaves room for a ball has a smaller one. *)
Theorem C119_ring_blank a S b z0 z1 (vol : pset -> R -> Prop) v w pieces : 0 < b < PI / 2 -> z0 < z1 < S ->
  let cap := ring_blank a S b z0 z1 in let rest := ring_rest a S b z0 z1 in
  (forall X u, vol X u -> vol (mirrored a X) u) ->
  (forall x y, vol (mirrored a cap) x -> vol rest y -> proper_part (mirrored a cap) rest -> x < y) ->
  vol cap v -> vol rest w -> Permutation pieces [(cap, v); (rest, w)] ->
  hd_error (key_sort snd pieces) = Some (cap, v).
Proof.
  intros B Z cap rest VM VP VC VR P. assert (L : v < w) by (apply VP; [apply VM, VC|exact VR|apply ring_mirror; assumption]).
  pose proof (Permutation_trans (sort_perm snd pieces) P) as Q. pose proof (sort_ordered snd pieces) as O. pose proof (Permutation_length Q) as LQ.
  destruct (key_sort snd pieces) as [|x [|y [|? ?]]]; try (cbn in LQ; lia). cbn [hd_error]. f_equal.
  symmetry in Q. apply Permutation_length_2_inv in Q. destruct Q as [Q|Q]; injection Q as E1 E2; subst; [reflexivity|].
  exfalso. destruct O as (O & _). specialize (O _ (or_introl eq_refl)). cbn in O. lra.
Qed.

(** For a bevel ring gear, the frustum through the outside circles has the half angle of the pitch cone plus two modules, and a
    positive height exactly if that is less than a right angle; then the piece that is kept is the gear. *)
Theorem C119_ring sv fs ts g n gm z0 z1 p0 p1 : bevel_gear g n gm -> 0 < gm < PI / 2 -> ip_inside (ig_in g) = true ->
  ig_profile sv fs ts g z0 = Ok p0 -> ig_profile sv fs ts g z1 = Ok p1 -> let rp := IZR n / 2 in let S := slant rp gm in let a := rp / tan gm in
  z0 < z1 -> z1 < S -> let b := gm + 2 / S in b < PI ->
  let l0 := vz (outer_center p0) in let h := vz (outer_center p1) - l0 in
  outer_radius p0 = (S - z0) * sin b /\ outer_radius p1 = (S - z1) * sin b /\ l0 = a - (S - z0) * cos b /\ h = (z1 - z0) * cos b /\ (0 < h <-> b < PI / 2) /\
  let ip := ig_in g in let lo := gm - (ip_ded ip - ip_shift ip) / S in let hi := gm + (ip_add ip + ip_shift ip) / S in
  0 < lo -> lo <= hi < b -> b < PI / 2 -> forall waste gear pieces,
  cut_apart (ring_blank a S b z0 z1) (fun p => S - z1 <= from_apex a p <= S - z0) a lo hi (fst waste) (fst gear) ->
  measured waste -> measured gear -> Permutation pieces [waste; gear] ->
  choose_solid snd true pieces = Kept gear.
Proof.
  intros H G IN EP0 EP1 rp S a Z01 Z1 b B l0 h. pose proof PI_RGT_0.
  assert (HN : 1 <= IZR n) by (apply IZR_le; pose proof (bg_n _ _ _ H); lia).
  assert (SP : 0 < S) by (apply slant_pos; [unfold rp; lra|lra]).
  pose proof (bevel_core g n gm z0 H) as K. cbv zeta in K. destruct K as (_ & _ & _ & _ & _ & _ & _ & _ & _ & E9). rewrite IN in E9.
  assert (OB : outside_angle n gm (k_ho (ig_core g)) = b).
  { rewrite E9. unfold outside_angle, outside_depth. fold rp S. rewrite Rmin_left by (unfold rp; lra). unfold b, Rdiv. ring. }
  assert (B0 : 0 < b) by (unfold b; assert (0 < 2 / S) by (apply Rdiv_lt_0_compat; lra); lra).
  destruct (outer_circle sv fs ts g n gm z0 p0 H G EP0 ltac:(rewrite OB; lra)) as (R0 & L0).
  destruct (outer_circle sv fs ts g n gm z1 p1 H G EP1 ltac:(rewrite OB; lra)) as (R1 & L1). rewrite OB in *. fold rp S a in R0, R1, L0, L1. fold l0 in L0.
  assert (HH : h = (z1 - z0) * cos b) by (unfold h; rewrite L1, L0; ring).
  split; [exact R0|]. split; [exact R1|]. split; [exact L0|]. split; [exact HH|]. split.
  - rewrite HH. split.
    + intros K. destruct (Rlt_dec b (PI / 2)) as [|N]; [assumption|]. exfalso. assert (C : cos b <= 0) by (apply cos_le_0; lra).
      assert (0 <= (z1 - z0) * - cos b) by (apply Rmult_le_pos; lra). lra.
    + intros K. apply Rmult_lt_0_compat; [lra|apply cos_gt_0; lra].
  - intros ip lo hi LO HI B2 waste gear pieces CA MW MG P. apply (pair_choice waste gear); [|exact P].
    apply (ring_higher a S b z0 z1 lo hi waste gear LO HI B2 (conj Z01 Z1) CA MW MG).
Qed.

(** ** Examples: the twelve-tooth bevel gear of C111, and the same as a ring gear *)
Lemma extent_ex (X : pset) l h : (exists p, X p) -> (forall p, X p -> l <= vz p <= h) -> exists v, measured (X, v).
Proof.
  intros (p & P) B. set (E := fun z => exists q, X q /\ vz q = z). set (F := fun z => exists q, X q /\ - vz q = z).
  destruct (completeness E) as (hi & UB & LUB); [exists h; intros z (q & Q & <-); apply B, Q|exists (vz p), p; auto|].
  destruct (completeness F) as (lo & UB' & LUB'); [exists (- l); intros z (q & Q & <-); specialize (B q Q); lra|exists (- vz p), p; auto|].
  exists ((- lo + hi) / 2), (- lo), hi. split; [|reflexivity]. split; [|split].
  - intros q Q. assert (vz q <= hi) by (apply UB; exists q; auto). assert (- vz q <= lo) by (apply UB'; exists q; auto). lra.
  - intros e Ee. destruct (Classical_Prop.classic (exists q, X q /\ vz q < - lo + e)) as [|N]; [assumption|]. exfalso.
    assert (lo <= lo - e); [|lra]. apply LUB'. intros z (q & Q & <-). destruct (Rle_dec (- vz q) (lo - e)) as [|K]; [assumption|]. exfalso. apply N. exists q. split; [exact Q|lra].
  - intros e Ee. destruct (Classical_Prop.classic (exists q, X q /\ hi - e < vz q)) as [|N]; [assumption|]. exfalso.
    assert (hi <= hi - e); [|lra]. apply LUB. intros z (q & Q & <-). destruct (Rle_dec (vz q) (hi - e)) as [|K]; [assumption|]. exfalso. apply N. exists q. split; [exact Q|lra].
Qed.
Lemma sign_mono a c d p : 0 < c -> c <= d -> d < PI -> 0 < cone_sign a d p -> 0 < cone_sign a c p.
Proof.
  intros C L D H. destruct (axial_facts a p) as (A & _). unfold cone_sign in *. assert (SD : 0 < sin d) by (apply sin_gt_0; lra). assert (SC : 0 < sin c) by (apply sin_gt_0; lra).
  apply Rmult_lt_reg_r with (sin d); [exact SD|]. rewrite Rmult_0_l.
  assert (K : 0 < (axial p * cos d - (a - vz p) * sin d) * sin c) by (apply Rmult_lt_0_compat; assumption).
  assert (SG : 0 <= sin (d - c)) by (apply sin_ge_0; lra). assert (0 <= axial p * sin (d - c)) by (apply Rmult_le_pos; assumption). rewrite sin_minus in *. lra.
Qed.
(** Cutting along the inner cone. *)
Lemma cone_cut (X shl : pset) a lo hi : 0 < lo -> lo <= hi < PI ->
  cut_apart X shl a lo hi (fun p => X p /\ (shl p -> cone_sign a lo p <= 0)) (fun p => X p /\ shl p /\ 0 <= cone_sign a lo p).
Proof.
  intros LO HI. constructor.
  - intros p K. apply K.
  - intros p K. apply K.
  - intros p X' K. split; [split; [exact X'|intros S; specialize (K S); lra]|]. intros (_ & S & N). specialize (K S). lra.
  - intros p X' S K. pose proof (sign_mono a lo hi p LO ltac:(lra) ltac:(lra) K). split; [split; [exact X'|split; [exact S|lra]]|]. intros (_ & N). specialize (N S). lra.
Qed.
Lemma dist_height a p r : from_apex a p <= r -> a - r <= vz p <= a + r.
Proof.
  intros D. destruct (axial_facts a p) as (A & F & Q). assert (E : (a - vz p) * (a - vz p) <= from_apex a p * from_apex a p) by (rewrite Q; pose proof (Rle_0_sqr (axial p)); unfold Rsqr in *; lra).
  assert (a - vz p <= from_apex a p) by (apply sq_le; assumption).
  assert (- (a - vz p) <= from_apex a p) by (apply sq_le; [exact F|]; replace (- (a - vz p) * - (a - vz p)) with ((a - vz p) * (a - vz p)) by ring; exact E). lra.
Qed.

Lemma ex_addendum : ex_ha < 2.
Proof.
  destruct ex_bevel_numbers as (w & s & x & W & S & CX & X & SG & CG & EX & WA & WD). pose proof PI_3. pose proof PI_4.
  unfold ex_ha. assert (SL : slant 6 (PI / 4) = 6 / s) by (unfold slant; rewrite SG; reflexivity). rewrite SL.
  set (e := s / 3). assert (E : 7 / 30 < e < 1 / 4) by (unfold e; lra).
  assert (D : cone_angle_at (PI / 4) (PI / 6) ex_turn < PI / 4 + e).
  { unfold cone_angle_at. rewrite WA. unfold cone_cos. rewrite CG, SG, sin_PI6.
    assert (WW : 0 < w * w < 1 / 64).
    { split; [apply Rmult_lt_0_compat; lra|]. assert (w * w < 1 / 8 * (1 / 8)) by (apply Rmult_le_0_lt_compat; lra). lra. }
    set (q := sqrt (1 - w * w)). assert (Q : 99 / 100 < q < 1) by (split; [apply sqrt_bound; lra|]; rewrite <- sqrt_1; apply sqrt_lt_1_alt; lra).
    assert (K : w / q < 13 / 100). { apply Rmult_lt_reg_r with q; [lra|]. replace (w / q * q) with w by (field; lra). lra. }
    assert (K0 : 0 < w / q) by (apply Rdiv_lt_0_compat; lra).
    replace (q * s - w * (1 / 2 * s) / q) with (s * (q - w / q / 2)) by (field; lra).
    assert (BD : 0 < s * (q - w / q / 2) < 1).
    { split; [apply Rmult_lt_0_compat; lra|]. assert (s * (q - w / q / 2) < 3 / 4 * 1) by (apply Rmult_le_0_lt_compat; lra). lra. }
    assert (SE : e / 2 <= sin e).
    { pose proof (sin_concave (e / (PI / 2)) (PI / 2)) as KK. rewrite sin_PI2 in KK. replace (e / (PI / 2) * (PI / 2)) with e in KK by (field; lra).
      assert (B : e / 2 <= e / (PI / 2) < 1).
      { split; [apply Rmult_le_compat_l; [lra|]; apply Rinv_le_contravar; lra|].
        apply Rmult_lt_reg_r with (PI / 2); [lra|]. replace (e / (PI / 2) * (PI / 2)) with e by (field; lra). lra. }
      specialize (KK ltac:(lra) ltac:(lra)). lra. }
    pose proof (COS_bound e) as CB.
    assert (LE : cos (PI / 4 + e) < s * (q - w / q / 2)).
    { rewrite cos_plus, CG, SG. replace (s * cos e - s * sin e) with (s * (cos e - sin e)) by ring. apply Rmult_lt_compat_l; lra. }
    pose proof (acos_bound_lt (s * (q - w / q / 2)) ltac:(lra)). apply cos_decreasing_0; try lra. rewrite cos_acos by lra. exact LE. }
  apply Rlt_le_trans with (6 / s * e); [|unfold e; right; field; lra]. apply Rmult_lt_compat_l; [apply Rdiv_lt_0_compat; lra|lra].
Qed.
Lemma ex_angles : let S := slant (12 / 2) (PI / 4) in 0 < PI / 4 - ex_hd / S /\ PI / 4 - ex_hd / S <= PI / 4 + ex_ha / S <= PI / 2 /\ PI / 4 + ex_ha / S < PI / 4 + 2 / S < PI / 2.
Proof.
  intros S. destruct ex_bevel as (BT & _). pose proof ex_slant as SL. pose proof PI_3. unfold S. replace (12 / 2) with 6 in * by field. clear S. set (S := slant 6 (PI / 4)) in *.
  pose proof (bt_root _ _ _ _ _ _ _ _ _ _ _ BT) as B1. pose proof (bt_h _ _ _ _ _ _ _ _ _ _ _ BT) as B2. pose proof (bt_tip _ _ _ _ _ _ _ _ _ _ _ BT) as B3. fold S in B1, B3.
  assert (I : 0 < / S) by (apply Rinv_0_lt_compat; lra). assert (0 < (ex_ha + ex_hd) * / S) by (apply Rmult_lt_0_compat; lra).
  assert (ex_ha * / S < 2 * / S) by (apply Rmult_lt_compat_r; [exact I|apply ex_addendum]).
  assert (2 * / S < 2 * / 8) by (apply Rmult_lt_compat_l; [lra|]; apply Rinv_lt_contravar; lra). unfold Rdiv in *. lra.
Qed.
Example C119_external_example fs : exists sv ts p0 p1 gear waste, ig_profile sv fs ts ex_bevel_gear 0 = Ok p0 /\ ig_profile sv fs ts ex_bevel_gear 2 = Ok p1 /\
  measured gear /\ measured waste /\ fst gear (V 0 0 (vz (outer_center p0))) /\ choose_solid snd false [waste; gear] = Kept gear.
Proof.
  destruct (ex_sections fs) as (sv & ts & E). destruct (E 0) as (p0 & EP0). destruct (E 2) as (p1 & EP1). destruct ex_bevel_made as (BG & PA & EI & HO).
  pose proof PI_RGT_0. pose proof ex_slant as SL. destruct ex_angles as (A1 & A2 & _). cbv zeta in A1, A2. set (a := 12 / 2 / tan (PI / 4)).
  assert (IN : ip_inside (ig_in ex_bevel_gear) = false) by (rewrite EI; reflexivity).
  destruct (C112_blank_shape sv fs ts _ _ _ 0 2 p0 p1 BG ltac:(lra) IN EP0 EP1 ltac:(lra) ltac:(lra)) as (B & SH). fold a in SH. set (b := PI / 4 - _) in B, SH.
  pose proof (C119_external sv fs ts ex_bevel_gear 12 (PI / 4) 0 2 p0 p1) as T. cbv zeta in T. rewrite !(sphere_data_default _ _ _ _ BG ltac:(lra)) in T. rewrite !Rabs_right in T by lra. fold a in T.
  set (S := slant (12 / 2) (PI / 4)) in *. rewrite EI in T. cbn [ex_bevel_param ip_inside ip_ded ip_add ip_shift] in T. rewrite Rplus_0_r, Rminus_0_r in T.
  set (X := ref_solid (ig_core ex_bevel_gear) p0 p1 0 2) in *. set (shl := shell (V 0 0 a) (S - 0) (V 0 0 a) (S - 2)) in *.
  pose proof (cone_cut X shl a (PI / 4 - ex_hd / S) (PI / 4 + ex_ha / S) A1 ltac:(lra)) as CU.
  set (G := fun p => X p /\ (shl p -> cone_sign a (PI / 4 - ex_hd / S) p <= 0)) in *. set (W := fun p => X p /\ shl p /\ 0 <= cone_sign a (PI / 4 - ex_hd / S) p) in *.
  assert (CB : 0 < cos b) by (apply cos_gt_0; lra). assert (SB : 0 < sin b) by (apply sin_gt_0; lra).
  assert (AX : forall z, axial (V 0 0 z) = 0) by (intros z; unfold axial; cbn [vx vy]; apply norm_eq; [lra|vec_simpl; ring]).
  assert (BB : outside_angle 12 (PI / 4) (k_ho (ig_core ex_bevel_gear)) = b) by (rewrite HO; reflexivity).
  destruct (outer_circle sv fs ts _ _ _ 0 p0 BG ltac:(lra) EP0 ltac:(rewrite BB; lra)) as (_ & L0). rewrite BB in L0. fold S a in L0.
  assert (P0 : 0 < (S - 0) * cos b) by (apply Rmult_lt_0_compat; lra). assert (P2 : 0 < (S - 2) * cos b) by (apply Rmult_lt_0_compat; lra).
  assert (XB : forall p, X p -> a - (S - 0) * cos b <= vz p <= a + S).
  { intros p P. apply SH in P. destruct P as (L & [D|(U & _)]); [|lra]. split; [exact L|]. apply (dist_height a p S). unfold from_apex. lra. }
  assert (GP : G (V 0 0 (vz (outer_center p0)))).
  { rewrite L0. set (l := a - (S - 0) * cos b). split.
    - apply SH. split; [cbn [vz]; unfold l; lra|]. right. cbn [vz]. rewrite AX. split; [unfold l; lra|]. rewrite Rmult_0_l. apply Rmult_le_pos; [unfold l; lra|lra].
    - intros _. unfold cone_sign. rewrite AX. cbn [vz]. assert (0 <= (a - l) * sin (PI / 4 - ex_hd / S)) by (apply Rmult_le_pos; [unfold l; lra|apply sin_ge_0; lra]). lra. }
  assert (WP : W (V 0 0 (a + S))).
  { assert (D : norm (vsub (V 0 0 (a + S)) (V 0 0 a)) = S) by (apply norm_eq; [lra|vec_simpl; ring]). split; [|split].
    - apply SH. split; [cbn [vz]; lra|]. left. rewrite D. lra.
    - unfold shl, shell, union, ball. rewrite D. split; [left; lra|lra].
    - unfold cone_sign. rewrite AX. cbn [vz]. assert (0 <= S * sin (PI / 4 - ex_hd / S)) by (apply Rmult_le_pos; [lra|apply sin_ge_0; lra]). lra. }
  destruct (extent_ex G _ _ (ex_intro _ _ GP) (fun p K => XB p (proj1 K))) as (vg & MG). destruct (extent_ex W _ _ (ex_intro _ _ WP) (fun p K => XB p (proj1 K))) as (vw & MW).
  exists sv, ts, p0, p1, (G, vg), (W, vw). split; [exact EP0|]. split; [exact EP1|]. split; [exact MG|]. split; [exact MW|]. split; [exact GP|].
  apply (T (G, vg) (W, vw) [(W, vw); (G, vg)] BG ltac:(lra) eq_refl EP0 EP1 ltac:(lra) ltac:(lra) A1 A2 CU MG MW (perm_swap _ _ _)).
Qed.
Example C119_ring_split_example : let shl := fun p => 2 <= from_apex 5 p <= 4 in
  let face := cone_side (4 * sin (PI / 4)) (2 * sin (PI / 4)) (2 * cos (PI / 4)) (5 - 4 * cos (PI / 4)) in
  joined (fun x => shl x /\ ~ face x) (spherical 5 3 (PI / 8) 0) (spherical 5 3 (PI / 8) 2) /\
  ~ joined (fun x => shl x /\ ~ face x) (spherical 5 3 (PI / 8) 0) (spherical 5 3 (PI / 2) 0).
Proof.
  intros shl face. pose proof PI_RGT_0.
  assert (F : forall f, from_apex 5 (spherical 5 3 (PI / 8) f) = 3 /\ cone_sign 5 (PI / 4) (spherical 5 3 (PI / 8) f) < 0).
  { intros f. destruct (spherical_facts 5 (PI / 4) 3 (PI / 8) f ltac:(lra) ltac:(lra)) as (E & C). split; [exact E|]. rewrite C. replace (PI / 8 - PI / 4) with (- (PI / 8)) by field. rewrite sin_neg.
    assert (0 < sin (PI / 8)) by (apply sin_gt_0; lra). lra. }
  assert (F2 : from_apex 5 (spherical 5 3 (PI / 2) 0) = 3 /\ 0 < cone_sign 5 (PI / 4) (spherical 5 3 (PI / 2) 0)).
  { destruct (spherical_facts 5 (PI / 4) 3 (PI / 2) 0 ltac:(lra) ltac:(lra)) as (E & C). split; [exact E|]. rewrite C. assert (0 < sin (PI / 2 - PI / 4)) by (apply sin_gt_0; lra). lra. }
  pose proof (fun p q => C119_ring_split 5 5 (PI / 4) 1 3 p q ltac:(lra) ltac:(lra)) as T. cbv zeta in T.
  replace (5 - 1) with 4 in T by ring. replace (5 - 3) with 2 in T by ring. replace (3 - 1) with 2 in T by ring. fold face in T.
  assert (OFF : forall p, cone_sign 5 (PI / 4) p <> 0 -> ~ face p).
  { intros p N K. apply N. pose proof (side_on 5 5 (PI / 4) 1 3 p) as L. replace (5 - 1) with 4 in L by ring. replace (5 - 3) with 2 in L by ring. replace (3 - 1) with 2 in L by ring. apply L; try lra; exact K. }
  destruct (F 0) as (D0 & C0). destruct (F 2) as (D1 & C1). destruct F2 as (D2 & C2). split.
  - apply T; try lra; try (unfold shl; lra); apply OFF; lra.
  - intros K. apply T in K; try lra; try (apply OFF; lra).
Qed.
Example C119_ring_blank_example : exists vol : pset -> R -> Prop, let cap := ring_blank 5 5 (PI / 4) 1 3 in let rest := ring_rest 5 5 (PI / 4) 1 3 in
  vol cap 1 /\ vol rest 2 /\ hd_error (key_sort snd [(rest, 2); (cap, 1)]) = Some (cap, 1).
Proof.
  pose proof PI_RGT_0. set (E := V 3 0 5). exists (fun X v => (X E /\ v = 2) \/ (~ X E /\ v = 1)). intros cap rest.
  assert (DE : from_apex 5 E = 3) by (unfold from_apex, E; apply norm_eq; [lra|vec_simpl; ring]).
  assert (AE : axial E = 3) by (unfold axial, E; cbn [vx vy]; apply norm_eq; [lra|vec_simpl; ring]).
  assert (CE : 0 < cone_sign 5 (PI / 4) E). { unfold cone_sign. rewrite AE. cbn [E vz]. assert (0 < cos (PI / 4)) by (apply cos_gt_0; lra). lra. }
  assert (NC : ~ cap E) by (intros (_ & K); lra). assert (YR : rest E) by (split; lra).
  assert (ME : forall X, mirrored 5 X E <-> X E). { intros X. unfold mirrored. cbn [E vx vy vz]. replace (2 * 5 - 5) with 5 by ring. reflexivity. }
  split; [right; auto|]. split; [left; auto|].
  apply (C119_ring_blank 5 5 (PI / 4) 1 3 (fun X v => (X E /\ v = 2) \/ (~ X E /\ v = 1)) 1 2); try lra.
  - intros X u. rewrite ME. auto.
  - intros x y. fold cap rest. rewrite ME. intros [(K & _)|(_ & ->)]; [contradiction|]. intros [(_ & ->)|(K & _)]; [lra|contradiction].
  - right. auto.
  - left. auto.
  - apply perm_swap.
Qed.
Definition ex_ring_param : iparam := mkIP 12 2 0 (2 * (PI / 4)) ORIGIN 0 3 false 0 0 0 0 ex_ha ex_hd (PI / 6) 0 0 true 0.
Definition ex_ring_gear : igear := ig_new ex_ring_param.
Lemma ex_ring_made : bevel_gear ex_ring_gear 12 (PI / 4) /\ (forall z, ig_pia ex_ring_gear z = ex_turn) /\ ig_in ex_ring_gear = ex_ring_param /\
  k_ho (ig_core ex_ring_gear) = - 2.
Proof.
  assert (NN : ip_normalise ex_ring_param = ex_ring_param).
  { unfold ip_normalise, ex_ring_param. cbn [ip_teeth]. destruct (Rlt_dec 12 0); [lra|reflexivity]. }
  assert (EI : ig_in ex_ring_gear = ex_ring_param) by (unfold ex_ring_gear, ig_new; rewrite NN; reflexivity).
  assert (EC : ig_core ex_ring_gear = calc_params ex_ring_param) by (unfold ex_ring_gear, ig_new; rewrite NN; reflexivity).
  split; [|split; [|split; [exact EI|rewrite EC; reflexivity]]].
  - split; rewrite ?EI, ?EC; try reflexivity; try lia.
    + cbn. lra.
    + cbn. apply rotation_I.
  - intros z. unfold ig_pia, crowning. rewrite EI, EC. cbn [ex_ring_param calc_params k_rp k_tooth_angle ip_height ip_crown ip_teeth ip_shift ip_alpha ip_backlash].
    unfold ex_turn, Rdiv. field.
Qed.
Lemma ex_ring_sections fs : exists sv ts, forall z, exists p, ig_profile sv fs ts ex_ring_gear z = Ok p.
Proof.
  destruct ex_bevel as (BT & _). pose proof PI_3. pose proof PI_4. assert (T0 : 0 < ex_turn < 1 / 5) by (unfold ex_turn; lra).
  destruct (C111_solvable 6 (PI / 4) (PI / 6) ex_turn ex_ha ex_hd (- 2) (PI / 6) (- ex_turn) 1 (- ex_turn) ex_turn None (- ex_turn) 1 BT) as (sv & ts & A & B); try lra.
  cbv zeta in B. destruct B as (_ & _ & B & C). exists sv, ts. intros z. destruct ex_ring_made as (BG & PA & EI & HO).
  destruct (C112_sphere sv fs ts ex_ring_gear 12 (PI / 4) z (- ex_turn) 1 (- ex_turn) ex_turn BG) as (p & EP & _); [| | |exists p; exact EP].
  - unfold bevel_at. rewrite EI, PA. cbn [ex_ring_param ip_alpha ip_add ip_ded ip_shift]. cbv zeta. replace (12 / 2) with 6 by field. replace (2 * PI / 12) with (PI / 6) by field. rewrite Rplus_0_r, Rminus_0_r. exact BT.
  - unfold bevel_searched. rewrite EI, HO, PA. cbn [ex_ring_param ip_alpha ip_add ip_ded ip_shift]. cbv zeta.
    replace (12 / 2) with 6 by field. replace (2 * PI / 12) with (PI / 6) by field. rewrite Rplus_0_r, Rminus_0_r. auto.
  - rewrite HO. destruct ex_angles as (_ & _ & A3). cbv zeta in A3. pose proof ex_slant. unfold outside_angle, outside_depth. rewrite Rmin_left by lra.
    assert (0 < 2 / slant (12 / 2) (PI / 4)) by (apply Rdiv_lt_0_compat; lra). unfold Rdiv in *. lra.
Qed.
Example C119_ring_example fs : exists sv ts p0 p1 gear waste, ig_profile sv fs ts ex_ring_gear 0 = Ok p0 /\ ig_profile sv fs ts ex_ring_gear 2 = Ok p1 /\
  outer_radius p1 < outer_radius p0 /\ measured gear /\ measured waste /\ choose_solid snd true [gear; waste] = Kept gear.
Proof.
  destruct (ex_ring_sections fs) as (sv & ts & E). destruct (E 0) as (p0 & EP0). destruct (E 2) as (p1 & EP1). destruct ex_ring_made as (BG & PA & EI & HO).
  pose proof PI_RGT_0. pose proof ex_slant as SL. destruct ex_angles as (A1 & A2 & A3). cbv zeta in A1, A2, A3. set (a := 12 / 2 / tan (PI / 4)).
  assert (IN : ip_inside (ig_in ex_ring_gear) = true) by (rewrite EI; reflexivity).
  pose proof (C119_ring sv fs ts ex_ring_gear 12 (PI / 4) 0 2 p0 p1 BG ltac:(lra) IN EP0 EP1) as T. cbv zeta in T. fold a in T.
  set (S := slant (12 / 2) (PI / 4)) in *. set (b := PI / 4 + 2 / S) in *.
  destruct (T ltac:(lra) ltac:(lra) ltac:(lra)) as (R0 & R1 & _ & _ & _ & K). clear T. rewrite EI in K. cbn [ex_ring_param ip_inside ip_ded ip_add ip_shift] in K. rewrite Rplus_0_r, Rminus_0_r in K.
  set (X := ring_blank a S b 0 2) in *. set (shl := fun p => S - 2 <= from_apex a p <= S - 0) in *. set (lo := PI / 4 - ex_hd / S) in *. set (hi := PI / 4 + ex_ha / S) in *.
  pose proof (cone_cut X shl a lo hi A1 ltac:(lra)) as CU. set (W := fun p => X p /\ (shl p -> cone_sign a lo p <= 0)) in *. set (G := fun p => X p /\ shl p /\ 0 <= cone_sign a lo p) in *.
  assert (XB : forall p, X p -> a - S <= vz p <= a + S) by (intros p (D & _); apply (dist_height a p S); lra).
  assert (PT : forall t, 0 <= t <= b -> shl (spherical a S t 0) /\ X (spherical a S t 0) /\ cone_sign a lo (spherical a S t 0) = S * sin (t - lo)).
  { intros t Ht. destruct (spherical_facts a b S t 0 ltac:(lra) ltac:(lra)) as (D & C). destruct (spherical_facts a lo S t 0 ltac:(lra) ltac:(lra)) as (_ & C').
    assert (SH : shl (spherical a S t 0)) by (unfold shl; rewrite D; lra). split; [exact SH|]. split; [|exact C']. split; [exact SH|]. rewrite C. replace (t - b) with (- (b - t)) by ring. rewrite sin_neg.
    assert (0 <= S * sin (b - t)) by (apply Rmult_le_pos; [lra|apply sin_ge_0; lra]). lra. }
  assert (WP : W (spherical a S 0 0)).
  { destruct (PT 0 ltac:(lra)) as (P1 & P2 & P3). split; [exact P2|]. intros _. rewrite P3. replace (0 - lo) with (- lo) by ring. rewrite sin_neg.
    assert (0 <= S * sin lo) by (apply Rmult_le_pos; [lra|apply sin_ge_0; lra]). lra. }
  assert (GP : G (spherical a S b 0)).
  { destruct (PT b ltac:(lra)) as (P1 & P2 & P3). split; [exact P2|]. split; [exact P1|]. rewrite P3. apply Rmult_le_pos; [lra|apply sin_ge_0; lra]. }
  destruct (extent_ex G _ _ (ex_intro _ _ GP) (fun p K => XB p (proj1 K))) as (vg & MG). destruct (extent_ex W _ _ (ex_intro _ _ WP) (fun p K => XB p (proj1 K))) as (vw & MW).
  exists sv, ts, p0, p1, (G, vg), (W, vw). split; [exact EP0|]. split; [exact EP1|]. split; [rewrite R0, R1; apply Rmult_lt_compat_r; [apply sin_gt_0; lra|lra]|]. split; [exact MG|]. split; [exact MW|].
  apply (K A1 ltac:(lra) ltac:(lra) (W, vw) (G, vg)); [exact CU|exact MW|exact MG|apply perm_swap].
Qed.
