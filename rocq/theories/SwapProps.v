(** C126: which Gear objects a tooth generator belongs to: swap_tooth_generator, copy, and two Gears made from one
    generator. *)
From Coq Require Import Reals List Lra Lia Bool Arith.
From Verif Require Import Num Vec Transform Params Coords GearMath Curve Chain RefLines Profile Fillet Recipe Teeth.
From Verif Require Import Swap.
Open Scope R_scope.

(** ** What a program can do *)
(** The user makes generators and assigns to their attributes, makes Gears from them or from the recipe of another
    Gear, swaps and copies.  An object of a conic class has a cone angle from its constructor on, and no attribute is
    ever deleted. *)
Inductive reach : heap -> Prop :=
| reach_nil : forall fg fr fo, reach (mkHeap fg fr fo 0 0 0)
| reach_gen : forall h g, reach h -> reach (add_gen h g)
| reach_set : forall h i g, reach h -> (i < h_ng h)%nat ->
    (gn_cone (h_gen h i) <> None -> gn_cone g <> None) -> reach (set_gen h i g)
| reach_new : forall h tp gam L tg rec, reach h ->
    (forall i, tg = Some i -> (i < h_ng h)%nat) -> (forall r, rec = Some r -> (r < h_nr h)%nat) ->
    reach (fst (gear_new h tp gam L tg rec))
| reach_swap : forall h o tg h', reach h -> (o < h_no h)%nat -> (tg < h_ng h)%nat ->
    swap_tooth_generator h o tg = Ok h' -> reach h'
| reach_copy : forall h o, reach h -> (o < h_no h)%nat -> reach (fst (gear_copy h o)).

(** The recipe of a Gear and the generator in that recipe. *)
Definition recipe_of (h : heap) (o : nat) : nat := ob_rec (h_obj h o).
Definition generator_of (h : heap) (o : nat) : nat := rc_gen (h_rec h (recipe_of h o)).
(** Two heaps give one Gear each, with the same profile for all solvers at all heights. *)
Definition same_profiles (h : heap) (o : nat) (h' : heap) (o' : nat) : Prop :=
  forall sv fs z, profile_at sv fs h o z = profile_at sv fs h' o' z /\ pitch_data h o z = pitch_data h' o' z.

(** ** References stay inside the heap *)
Definition sound (h : heap) : Prop :=
  (forall o, (o < h_no h)%nat -> (ob_gen (h_obj h o) < h_ng h)%nat /\ (ob_rec (h_obj h o) < h_nr h)%nat) /\
  (forall r, (r < h_nr h)%nat -> (rc_gen (h_rec h r) < h_ng h)%nat /\ gn_cone (h_gen h (rc_gen (h_rec h r))) <> None).

Ltac heaps := unfold generator_of, recipe_of, gear_new, recipe_from_curve, gear_copy, swap_tooth_generator, add_gen,
  add_rec, add_obj, set_gen, set_rec, set_obj in *; cbn [h_gen h_rec h_obj h_ng h_nr h_no fst snd] in *.
Ltac cases := unfold upd in *; repeat match goal with
  | |- context [Nat.eqb ?a ?b] => destruct (Nat.eqb_spec a b); subst; cbn [rc_gen ob_rec ob_gen gn_cone gn_kind gn_rp gn_pia] in *; try lia
  | H : context [Nat.eqb ?a ?b] |- _ => destruct (Nat.eqb_spec a b); subst; cbn [rc_gen ob_rec ob_gen gn_cone gn_kind gn_rp gn_pia] in *; try lia
  end.

Lemma sound_gen h g : sound h -> sound (add_gen h g).
Proof.
  intros [A B]; split; heaps.
  - intros o Ho; destruct (A o Ho); split; lia.
  - intros r Hr; destruct (B r Hr) as [B1 B2]; split; [lia|]. cases. exact B2.
Qed.

Lemma sound_set h i g : sound h -> (i < h_ng h)%nat -> (gn_cone (h_gen h i) <> None -> gn_cone g <> None) ->
  sound (set_gen h i g).
Proof.
  intros [A B] Hi Hg; split; heaps; [exact A|].
  intros r Hr; destruct (B r Hr) as [B1 B2]; split; [lia|]. unfold upd.
  destruct (Nat.eqb_spec (rc_gen (h_rec h r)) i) as [E|E]; [rewrite E in B2; auto | auto].
Qed.

Lemma sound_curve h tp gam L i : sound h -> (i < h_ng h)%nat -> sound (recipe_from_curve h tp gam L i).
Proof.
  intros [A B] Hi; split; heaps.
  - intros o Ho; destruct (A o Ho); split; lia.
  - intros r Hr. unfold upd at 1 3. destruct (Nat.eqb_spec r (h_nr h)) as [E|E].
    + cbn [rc_gen]. unfold upd. rewrite Nat.eqb_refl. cbn. split; [lia | discriminate].
    + assert (Hr' : (r < h_nr h)%nat) by lia. destruct (B r Hr') as [B1 B2]. split; [lia|].
      unfold upd. destruct (Nat.eqb _ i); [cbn; discriminate | exact B2].
Qed.

Lemma sound_obj h ob : sound h -> (ob_gen ob < h_ng h)%nat -> (ob_rec ob < h_nr h)%nat -> sound (add_obj h ob).
Proof.
  intros [A B] H1 H2; split; heaps; [|exact B].
  intros o Ho. unfold upd. destruct (Nat.eqb_spec o (h_no h)); [split; lia | apply A; lia].
Qed.

Lemma sound_rec h r : sound h -> (rc_gen r < h_ng h)%nat -> gn_cone (h_gen h (rc_gen r)) <> None -> sound (add_rec h r).
Proof.
  intros [A B] H1 H2; split; heaps.
  - intros o Ho; destruct (A o Ho); split; lia.
  - intros k Hk. unfold upd. destruct (Nat.eqb_spec k (h_nr h)); [split; auto | apply B; lia].
Qed.

Lemma reach_sound h : reach h -> sound h.
Proof.
  induction 1 as [| h g H IH | h i g H IH Hi Hg | h tp gam L tg rec H IH Ht Hr | h o tg h' H IH Ho Htg E | h o H IH Ho].
  - split; cbn; intros; lia.
  - apply sound_gen; auto.
  - apply sound_set; auto.
  - unfold gear_new. cbn [fst].
    assert (K : forall h0 i, sound h0 -> (i < h_ng h0)%nat -> (forall r, rec = Some r -> (r < h_nr h0)%nat) ->
      sound (add_obj (match rec with Some _ => h0 | None => recipe_from_curve h0 tp gam L i end)
               (mkObj i (match rec with Some r => r | None => h_nr h0 end)))).
    { intros h0 i S0 Hi Hr0. destruct rec as [r|].
      - apply sound_obj; cbn; auto.
      - apply sound_obj; [apply sound_curve; auto | cbn; auto | cbn; lia]. }
    destruct tg as [i|].
    + apply K; auto.
    + apply K; [apply sound_gen; auto | cbn; lia | exact Hr].
  - unfold swap_tooth_generator in E. destruct (gn_cone _) as [c|] eqn:Ec; [|discriminate]. injection E as <-.
    destruct IH as [A B]. split; heaps.
    + intros k Hk. unfold upd. destruct (Nat.eqb_spec k o); cbn.
      * destruct (A o Ho); split; lia.
      * destruct (A k Hk); split; lia.
    + intros k Hk. unfold upd at 1 3. destruct (Nat.eqb_spec k (ob_rec (h_obj h o))) as [Ek|Ek]; cbn [rc_gen].
      * unfold upd. rewrite Nat.eqb_refl. cbn. split; [lia | discriminate].
      * destruct (B k Hk) as [B1 B2]. split; [lia|]. unfold upd.
        destruct (Nat.eqb_spec (rc_gen (h_rec h k)) (h_ng h)); [lia | exact B2].
  - destruct IH as [A B]. pose proof (A o Ho) as [A1 A2]. pose proof (B _ A2) as [B1 B2].
    unfold gear_copy. cbn [fst].
    set (r := h_rec h (ob_rec (h_obj h o))) in *.
    destruct (Nat.eqb_spec (rc_gen r) (ob_gen (h_obj h o))) as [E|E].
    + apply sound_obj; [apply sound_rec; [apply sound_gen; split; auto | cbn; lia |] | cbn; lia | cbn; lia].
      cbn. unfold upd. rewrite Nat.eqb_refl. rewrite <- E. exact B2.
    + apply sound_obj; [apply sound_rec; [apply sound_gen; apply sound_gen; split; auto | cbn; lia |] | cbn; lia | cbn; lia].
      cbn. unfold upd at 1. rewrite Nat.eqb_refl. exact B2.
Qed.

(** ** Profiles depend on the recipe and its generator only *)
Lemma same_from h o h' o' :
  h_gen h (generator_of h o) = h_gen h' (generator_of h' o') ->
  rc_cone (h_rec h (recipe_of h o)) = rc_cone (h_rec h' (recipe_of h' o')) ->
  rc_base (h_rec h (recipe_of h o)) = rc_base (h_rec h' (recipe_of h' o')) ->
  rc_ha (h_rec h (recipe_of h o)) = rc_ha (h_rec h' (recipe_of h' o')) ->
  rc_hd (h_rec h (recipe_of h o)) = rc_hd (h_rec h' (recipe_of h' o')) ->
  rc_ho (h_rec h (recipe_of h o)) = rc_ho (h_rec h' (recipe_of h' o')) ->
  rc_tip (h_rec h (recipe_of h o)) = rc_tip (h_rec h' (recipe_of h' o')) ->
  rc_root (h_rec h (recipe_of h o)) = rc_root (h_rec h' (recipe_of h' o')) ->
  rc_red (h_rec h (recipe_of h o)) = rc_red (h_rec h' (recipe_of h' o')) ->
  rc_pitch (h_rec h (recipe_of h o)) = rc_pitch (h_rec h' (recipe_of h' o')) ->
  rc_trf (h_rec h (recipe_of h o)) = rc_trf (h_rec h' (recipe_of h' o')) ->
  same_profiles h o h' o'.
Proof.
  unfold generator_of, recipe_of. intros E1 E2 E3 E4 E5 E6 E7 E8 E9 E10 E11 sv fs z.
  unfold profile_at, pitch_data. cbv zeta.
  rewrite <- E1, <- E2, <- E3, <- E4, <- E5, <- E6, <- E7, <- E8, <- E9, <- E10, <- E11. split; reflexivity.
Qed.

(** The frame rule: a Gear keeps its profiles when its recipe and the generator in it are what they were. *)
Lemma same_frame h h' o : h_obj h' o = h_obj h o -> h_rec h' (recipe_of h o) = h_rec h (recipe_of h o) ->
  h_gen h' (generator_of h o) = h_gen h (generator_of h o) -> same_profiles h' o h o.
Proof.
  intros E1 E2 E3.
  assert (F1 : recipe_of h' o = recipe_of h o) by (unfold recipe_of; now rewrite E1).
  assert (F2 : generator_of h' o = generator_of h o) by (unfold generator_of; now rewrite F1, E2).
  apply same_from; rewrite ?F1, ?F2, ?E2; auto.
Qed.

Lemma in_heap h o : reach h -> (o < h_no h)%nat ->
  (recipe_of h o < h_nr h)%nat /\ (generator_of h o < h_ng h)%nat /\ gn_cone (h_gen h (generator_of h o)) <> None.
Proof.
  intros R Ho. destruct (reach_sound _ R) as [A B]. destruct (A o Ho) as [_ A2]. destruct (B _ A2) as [B1 B2].
  unfold recipe_of, generator_of, recipe_of. auto.
Qed.

(** What swap_tooth_generator leaves behind. *)
Lemma swap_facts h o tg h' c : gn_cone (h_gen h (generator_of h o)) = Some c -> swap_tooth_generator h o tg = Ok h' ->
  recipe_of h' o = recipe_of h o /\ generator_of h' o = h_ng h /\
  h_gen h' (h_ng h) = mkGen (gn_kind (h_gen h tg)) (gn_rp (h_gen h (generator_of h o))) (gn_pia (h_gen h (generator_of h o))) (Some c) /\
  (forall i, i <> h_ng h -> h_gen h' i = h_gen h i) /\ h_ng h' = S (h_ng h) /\
  h_rec h' (recipe_of h o) = mkRec (h_ng h) (rc_cone (h_rec h (recipe_of h o))) (rc_base (h_rec h (recipe_of h o)))
    (rc_ha (h_rec h (recipe_of h o))) (rc_hd (h_rec h (recipe_of h o))) (rc_ho (h_rec h (recipe_of h o)))
    (rc_tip (h_rec h (recipe_of h o))) (rc_root (h_rec h (recipe_of h o))) (rc_red (h_rec h (recipe_of h o)))
    (rc_pitch (h_rec h (recipe_of h o))) (rc_trf (h_rec h (recipe_of h o))).
Proof.
  intros Ec E. unfold swap_tooth_generator in E. fold (recipe_of h o) in E. fold (generator_of h o) in E.
  rewrite Ec in E. injection E as <-.
  split; [|split; [|split; [|split; [|split]]]].
  - unfold recipe_of at 1. cbn. unfold upd. rewrite Nat.eqb_refl. reflexivity.
  - unfold generator_of, recipe_of. cbn. unfold upd. rewrite ?Nat.eqb_refl. cbn. rewrite ?Nat.eqb_refl. reflexivity.
  - cbn. unfold upd. rewrite Nat.eqb_refl. reflexivity.
  - intros i Hi. cbn. unfold upd. rewrite (proj2 (Nat.eqb_neq _ _) Hi). reflexivity.
  - reflexivity.
  - cbn. unfold upd. rewrite Nat.eqb_refl. reflexivity.
Qed.

(** What the constructor of a Gear leaves behind. *)
Lemma new_facts h tp gam L tg h' n i : i = match tg with Some i => i | None => h_ng h end ->
  gear_new h tp gam L tg None = (h', n) ->
  h_rec h' (recipe_of h' n) = mkRec i (cone_attr (num_teeth tp) gam L) (num_teeth tp / 2) 1 (6 / 5) 2 0 0 0
    (tp_pitch_angle tp) (curve_slice (num_teeth tp) (gear_ref_curve (num_teeth tp) gam L) (gear_scaler L)) /\
  h_gen h' i = mkGen (gn_kind (match tg with Some i => h_gen h i | None => conic_gen end)) (Fixed (num_teeth tp / 2))
    (Fixed (2 * PI / num_teeth tp / 4)) (Some (cone_attr (num_teeth tp) gam L)) /\
  (forall j, j <> i -> h_gen h' j = h_gen h j).
Proof.
  intros -> E. unfold gear_new in E. injection E as <- <-.
  split; [|split].
  - unfold recipe_of, recipe_from_curve, add_obj, add_rec, set_gen, upd. cbn [h_rec h_obj h_no h_nr].
    rewrite Nat.eqb_refl. cbn [ob_rec]. destruct tg; cbn [add_gen h_nr]; rewrite Nat.eqb_refl; reflexivity.
  - destruct tg as [i|]; unfold recipe_from_curve, add_obj, add_rec, set_gen, add_gen, upd; cbn [h_gen]; rewrite ?Nat.eqb_refl; reflexivity.
  - intros j Hj. destruct tg as [i|]; unfold recipe_from_curve, add_obj, add_rec, set_gen, add_gen, upd; cbn [h_gen];
      rewrite ?(proj2 (Nat.eqb_neq _ _) Hj); reflexivity.
Qed.

(** ** C126: swap_tooth_generator *)
(** It never fails, the generator passed and every other generator stay as they are, and the Gears with another
    recipe keep their profiles. *)
Theorem C126_swap_keeps : forall h o tg, reach h -> (o < h_no h)%nat -> (tg < h_ng h)%nat ->
  exists h', swap_tooth_generator h o tg = Ok h' /\
  (forall i, (i < h_ng h)%nat -> h_gen h' i = h_gen h i) /\
  (forall o2, (o2 < h_no h)%nat -> recipe_of h o2 <> recipe_of h o -> same_profiles h' o2 h o2) /\
  (forall o2, (o2 < h_no h)%nat -> recipe_of h o2 = recipe_of h o -> same_profiles h' o2 h' o).
Proof.
  intros h o tg R Ho Ht. pose proof (in_heap h o R Ho) as (A1 & A2 & A3).
  unfold swap_tooth_generator. fold (recipe_of h o). fold (generator_of h o).
  destruct (gn_cone (h_gen h (generator_of h o))) as [c|] eqn:Ec; [|congruence].
  eexists; split; [reflexivity|].
  split; [|split].
  - intros i Hi. heaps. cases. reflexivity.
  - intros o2 Ho2 Hne. pose proof (in_heap h o2 R Ho2) as (D1 & D2 & D3).
    apply same_frame.
    + cbn. unfold upd. destruct (Nat.eqb_spec o2 o); [subst; congruence | reflexivity].
    + cbn. unfold upd. destruct (Nat.eqb_spec (recipe_of h o2) (recipe_of h o)); [congruence | reflexivity].
    + cbn. unfold upd. destruct (Nat.eqb_spec (generator_of h o2) (h_ng h)); [lia | reflexivity].
  - intros o2 Ho2 He. set (h' := set_rec _ _ _).
    assert (F : recipe_of h' o2 = recipe_of h' o).
    { unfold h'. heaps. cases; auto. }
    apply same_from; unfold generator_of; rewrite F; reflexivity.
Qed.

(** The Gear has the flanks of the new class, with the pitch radius, the cone angle and the intersect angle it had:
    it is the Gear that the constructor makes from the new generator. *)
Theorem C126_swap_fresh : forall h tp gam L tg, reach h -> (tg < h_ng h)%nat ->
  let (h1, o1) := gear_new h tp gam L None None in
  let (h3, o3) := gear_new h tp gam L (Some tg) None in
  exists h2, swap_tooth_generator h1 o1 tg = Ok h2 /\ same_profiles h2 o1 h3 o3.
Proof.
  intros h tp gam L tg R Ht.
  destruct (gear_new h tp gam L None None) as [h1 o1] eqn:E1. destruct (gear_new h tp gam L (Some tg) None) as [h3 o3] eqn:E3.
  destruct (new_facts _ _ _ _ _ _ _ _ eq_refl E1) as (F1 & F2 & F3).
  destruct (new_facts _ _ _ _ _ _ _ _ eq_refl E3) as (G1 & G2 & G3).
  assert (F4 : generator_of h1 o1 = h_ng h) by (unfold generator_of; rewrite F1; reflexivity).
  assert (G4 : generator_of h3 o3 = tg) by (unfold generator_of; rewrite G1; reflexivity).
  assert (Ec : gn_cone (h_gen h1 (generator_of h1 o1)) = Some (cone_attr (num_teeth tp) gam L)) by (rewrite F4, F2; reflexivity).
  assert (S2 : exists h2, swap_tooth_generator h1 o1 tg = Ok h2).
  { unfold swap_tooth_generator. fold (recipe_of h1 o1). fold (generator_of h1 o1). rewrite Ec. eexists; reflexivity. }
  destruct S2 as [h2 E2]. exists h2. split; [exact E2|].
  destruct (swap_facts _ _ _ _ _ Ec E2) as (K1 & K2 & K3 & K4 & K5 & K6).
  rewrite F1 in K6. cbn [rc_cone rc_base rc_ha rc_hd rc_ho rc_tip rc_root rc_red rc_pitch rc_trf] in K6.
  apply same_from; rewrite ?K1, ?K6, ?G1; try reflexivity.
  rewrite K2, K3, G4, G2, F4, F2, F3 by lia. reflexivity.
Qed.

(** For a Gear of any recipe: the same pitch data at every height. *)
Theorem C126_swap_pitch : forall h o tg h', reach h -> (o < h_no h)%nat -> (tg < h_ng h)%nat ->
  kd_conic (gn_kind (h_gen h tg)) = true -> kd_conic (gn_kind (h_gen h (generator_of h o))) = true ->
  swap_tooth_generator h o tg = Ok h' ->
  (forall z, pitch_data h' o z = pitch_data h o z) /\
  gn_kind (h_gen h' (generator_of h' o)) = gn_kind (h_gen h tg).
Proof.
  intros h o tg h' R Ho Ht K1 K2 E. unfold swap_tooth_generator in E.
  unfold pitch_data, generator_of, recipe_of in *.
  destruct (gn_cone _) as [c|] eqn:Ec; [|discriminate]. injection E as <-. heaps. unfold upd.
  rewrite ?Nat.eqb_refl. cbn [ob_rec]. rewrite ?Nat.eqb_refl. cbn [rc_gen]. rewrite ?Nat.eqb_refl.
  split; [|reflexivity]. intros z. unfold gen_call. cbn [gn_kind gn_cone gn_rp gn_pia]. rewrite K1, K2, Ec. reflexivity.
Qed.

(** Swapping back the generator the Gear had gives the profiles it had. *)
Theorem C126_swap_back : forall h o tg h1 h2, reach h -> (o < h_no h)%nat -> (tg < h_ng h)%nat ->
  swap_tooth_generator h o tg = Ok h1 -> swap_tooth_generator h1 o (generator_of h o) = Ok h2 ->
  same_profiles h2 o h o.
Proof.
  intros h o tg h1 h2 R Ho Ht E1 E2. pose proof (in_heap h o R Ho) as (A1 & A2 & A3).
  destruct (gn_cone (h_gen h (generator_of h o))) as [c|] eqn:Ec; [|congruence].
  destruct (swap_facts _ _ _ _ _ Ec E1) as (F1 & F2 & F3 & F4 & F5 & F6).
  assert (Ec1 : gn_cone (h_gen h1 (generator_of h1 o)) = Some c) by (rewrite F2, F3; reflexivity).
  destruct (swap_facts _ _ _ _ _ Ec1 E2) as (G1 & G2 & G3 & G4 & G5 & G6).
  rewrite F1 in G1, G6. rewrite F6 in G6. cbn [rc_cone rc_base rc_ha rc_hd rc_ho rc_tip rc_root rc_red rc_pitch rc_trf] in G6.
  apply same_from; rewrite ?G1, ?G6; try reflexivity.
  rewrite G2, G3, F2, F3, F4 by lia. cbn [gn_rp gn_pia]. rewrite <- Ec.
  destruct (h_gen h (generator_of h o)); reflexivity.
Qed.

(** What is done afterwards with the generator that was passed does not reach the Gear: assignments to it, and Gears
    made from it. *)
Theorem C126_swap_later : forall h o tg h', reach h -> (o < h_no h)%nat -> (tg < h_ng h)%nat ->
  swap_tooth_generator h o tg = Ok h' ->
  (forall i g, (i < h_ng h)%nat -> same_profiles (set_gen h' i g) o h' o) /\
  (forall i tp gam L, (i < h_ng h)%nat -> same_profiles (fst (gear_new h' tp gam L (Some i) None)) o h' o).
Proof.
  intros h o tg h' R Ho Ht E.
  assert (R' : reach h') by (eapply reach_swap; eauto).
  assert (G : generator_of h' o = h_ng h /\ h_no h' = h_no h).
  { unfold swap_tooth_generator in E. destruct (gn_cone _) as [c|]; [|discriminate]. injection E as <-.
    split; [|reflexivity]. heaps. unfold upd. rewrite ?Nat.eqb_refl. cbn [ob_rec]. rewrite ?Nat.eqb_refl. reflexivity. }
  destruct G as [G Gn]. pose proof (in_heap h' o R' ltac:(lia)) as (A1 & A2 & A3).
  split.
  - intros i g Hi. apply same_frame; [reflexivity | reflexivity |].
    cbn. unfold upd. destruct (Nat.eqb_spec (generator_of h' o) i); [lia | reflexivity].
  - intros i tp gam L Hi. apply same_frame; cbn; unfold upd.
    + destruct (Nat.eqb_spec o (h_no h')); [lia | reflexivity].
    + destruct (Nat.eqb_spec (recipe_of h' o) (h_nr h')); [lia | reflexivity].
    + destruct (Nat.eqb_spec (generator_of h' o) i); [lia | reflexivity].
Qed.

(** ** C126: copy *)
(** The copy has the same profiles; swapping, assigning to a generator or making Gears from it on one side does not
    show on the other. *)
Theorem C126_copy : forall h o, reach h -> (o < h_no h)%nat ->
  let (h', c) := gear_copy h o in
  same_profiles h' c h o /\
  (forall o2, (o2 < h_no h)%nat -> same_profiles h' o2 h o2) /\
  (forall tg h2 o2, (tg < h_ng h')%nat -> (o2 < h_no h)%nat -> swap_tooth_generator h' c tg = Ok h2 -> same_profiles h2 o2 h o2) /\
  (forall tg h2 o2, (tg < h_ng h')%nat -> (o2 < h_no h)%nat -> swap_tooth_generator h' o2 tg = Ok h2 -> same_profiles h2 c h o) /\
  (forall i g, (i < h_ng h)%nat -> same_profiles (set_gen h' i g) c h o) /\
  (forall i tp gam L, (i < h_ng h)%nat -> same_profiles (fst (gear_new h' tp gam L (Some i) None)) c h o).
Proof.
  intros h o R Ho. destruct (gear_copy h o) as [h' c] eqn:E.
  assert (R' : reach h') by (pose proof (reach_copy h o R Ho) as K; rewrite E in K; exact K).
  pose proof (in_heap h o R Ho) as (A1 & A2 & A3).
  assert (F : c = h_no h /\ h_no h' = S (h_no h) /\ (h_ng h <= h_ng h')%nat /\ recipe_of h' c = h_nr h /\
    (h_ng h <= generator_of h' c)%nat /\ same_profiles h' c h o /\
    (forall i, (i < h_ng h)%nat -> h_gen h' i = h_gen h i) /\ (forall r, (r < h_nr h)%nat -> h_rec h' r = h_rec h r) /\
    (forall k, (k < h_no h)%nat -> h_obj h' k = h_obj h k)).
  { unfold gear_copy in E. injection E as <- <-. fold (recipe_of h o). fold (generator_of h o).
    set (r := h_rec h (recipe_of h o)) in *.
    assert (Er : rc_gen r = generator_of h o) by reflexivity.
    destruct (Nat.eqb_spec (generator_of h o) (ob_gen (h_obj h o))) as [Eg|Eg].
    - split; [reflexivity|]. split; [reflexivity|]. split; [cbn; lia|].
      split; [|split; [|split; [|split; [|split]]]].
      + unfold recipe_of. cbn. unfold upd. rewrite ?Nat.eqb_refl. reflexivity.
      + unfold generator_of, recipe_of. cbn. unfold upd. rewrite ?Nat.eqb_refl. cbn. rewrite ?Nat.eqb_refl. cbn. lia.
      + apply same_from; unfold generator_of, recipe_of; cbn; unfold upd;
          repeat (rewrite ?Nat.eqb_refl; cbn [ob_rec rc_gen rc_cone rc_base rc_ha rc_hd rc_ho rc_tip rc_root rc_red rc_pitch rc_trf]); try reflexivity.
        rewrite <- Eg. reflexivity.
      + intros i Hi. cbn. unfold upd. destruct (Nat.eqb_spec i (h_ng h)); [lia | reflexivity].
      + intros i Hi. cbn. unfold upd. destruct (Nat.eqb_spec i (h_nr h)); [lia | reflexivity].
      + intros i Hi. cbn. unfold upd. destruct (Nat.eqb_spec i (h_no h)); [lia | reflexivity].
    - split; [reflexivity|]. split; [reflexivity|]. split; [cbn; lia|].
      split; [|split; [|split; [|split; [|split]]]].
      + unfold recipe_of. cbn. unfold upd. rewrite ?Nat.eqb_refl. reflexivity.
      + unfold generator_of, recipe_of. cbn. unfold upd. rewrite ?Nat.eqb_refl. cbn. rewrite ?Nat.eqb_refl. cbn. lia.
      + apply same_from; unfold generator_of, recipe_of; cbn; unfold upd;
          repeat (rewrite ?Nat.eqb_refl; cbn [ob_rec rc_gen rc_cone rc_base rc_ha rc_hd rc_ho rc_tip rc_root rc_red rc_pitch rc_trf]); reflexivity.
      + intros i Hi. cbn. unfold upd. destruct (Nat.eqb_spec i (S (h_ng h))); [lia|].
        destruct (Nat.eqb_spec i (h_ng h)); [lia | reflexivity].
      + intros i Hi. cbn. unfold upd. destruct (Nat.eqb_spec i (h_nr h)); [lia | reflexivity].
      + intros i Hi. cbn. unfold upd. destruct (Nat.eqb_spec i (h_no h)); [lia | reflexivity]. }
  clear E. destruct F as (Fc & Fn & Fg & Fr & Fgc & Fs & Gg & Gr & Go).
  assert (Old : forall o2, (o2 < h_no h)%nat -> same_profiles h' o2 h o2).
  { intros o2 H2. pose proof (in_heap h o2 R H2) as (D1 & D2 & D3). apply same_frame; auto. }
  assert (Tr : forall h1 o1 h2 o2 h3 o3, same_profiles h1 o1 h2 o2 -> same_profiles h2 o2 h3 o3 -> same_profiles h1 o1 h3 o3).
  { intros h1 o1 h2 o2 h3 o3 S1 S2 sv fs z. destruct (S1 sv fs z) as [-> ->]. apply S2. }
  assert (Rold : forall o2, (o2 < h_no h)%nat -> (recipe_of h' o2 < h_nr h)%nat).
  { intros o2 H2. unfold recipe_of. rewrite Go by auto. apply (in_heap h o2 R H2). }
  pose proof (in_heap h' c R' ltac:(lia)) as (C1 & C2 & C3).
  split; [exact Fs|]. split; [exact Old|]. split; [|split; [|split]].
  - intros tg h2 o2 Htg H2 E2. destruct (C126_swap_keeps h' c tg R' ltac:(lia) Htg) as (h3 & E3 & _ & K & _).
    rewrite E2 in E3. injection E3 as <-. apply (Tr _ _ h' o2); [apply K; [lia|] | apply Old; auto].
    specialize (Rold o2 H2). rewrite Fr. lia.
  - intros tg h2 o2 Htg H2 E2. destruct (C126_swap_keeps h' o2 tg R' ltac:(lia) Htg) as (h3 & E3 & _ & K & _).
    rewrite E2 in E3. injection E3 as <-. apply (Tr _ _ h' c); [apply K; [lia|] | exact Fs].
    specialize (Rold o2 H2). rewrite Fr. lia.
  - intros i g Hi. apply (Tr _ _ h' c); [|exact Fs]. apply same_frame; [reflexivity | reflexivity |].
    cbn. unfold upd. destruct (Nat.eqb_spec (generator_of h' c) i); [lia | reflexivity].
  - intros i tp gam L Hi. apply (Tr _ _ h' c); [|exact Fs]. apply same_frame; cbn; unfold upd.
    + destruct (Nat.eqb_spec c (h_no h')); [lia | reflexivity].
    + destruct (Nat.eqb_spec (recipe_of h' c) (h_nr h')); [lia | reflexivity].
    + destruct (Nat.eqb_spec (generator_of h' c) i); [lia | reflexivity].
Qed.

(** ** C126: making a Gear from a generator in use *)
(** The Gears whose recipe holds another generator keep their profiles; the others now have half the tooth number of
    the new Gear as pitch radius of their flanks, and a quarter of its pitch as intersect angle, while the cone of
    their recipe stays. *)
Theorem C126_new : forall h tp gam L tg, reach h -> (tg < h_ng h)%nat ->
  let (h', n) := gear_new h tp gam L (Some tg) None in
  forall o, (o < h_no h)%nat ->
  (generator_of h o <> tg -> same_profiles h' o h o) /\
  (generator_of h o = tg -> kd_conic (gn_kind (h_gen h tg)) = true ->
    (forall z, pitch_data h' o z = pitch_data h' n z) /\
    (forall z, exists ca, pitch_data h' o z = Ok (num_teeth tp / 2, 2 * PI / num_teeth tp / 4, ca)) /\
    h_rec h' (recipe_of h' o) = h_rec h (recipe_of h o)).
Proof.
  intros h tp gam L tg R Ht. unfold gear_new. cbv zeta. intros o Ho.
  pose proof (in_heap h o R Ho) as (A1 & A2 & A3). split.
  - intros Hne. apply same_frame; cbn -[Nat.eqb]; unfold upd.
    + destruct (Nat.eqb_spec o (h_no h)); [lia | reflexivity].
    + destruct (Nat.eqb_spec (recipe_of h o) (h_nr h)); [lia | reflexivity].
    + destruct (Nat.eqb_spec (generator_of h o) tg); [congruence | reflexivity].
  - intros He Hk. unfold generator_of, recipe_of in *. unfold pitch_data, recipe_of. heaps. unfold upd.
    rewrite (proj2 (Nat.eqb_neq o (h_no h))) by lia. rewrite Nat.eqb_refl. cbn [ob_rec].
    rewrite (proj2 (Nat.eqb_neq (ob_rec (h_obj h o)) (h_nr h))) by lia. rewrite Nat.eqb_refl. cbn [rc_gen].
    rewrite He, Nat.eqb_refl. split; [reflexivity|]. split; [|reflexivity].
    intros z. unfold gen_call. cbn [gn_kind gn_cone gn_rp gn_pia attr_at]. rewrite Hk. eexists; reflexivity.
Qed.

(** A new Gear: at each height the flanks and the recipe have the cone of the slice there, the cone that cone_at_z
    reports, with half the tooth number as radius and a quarter of the pitch as intersect angle. *)
Theorem C126_new_cone : forall h tp module gam L tg h' n z,
  (forall i, tg = Some i -> (i < h_ng h)%nat /\ kd_conic (gn_kind (h_gen h i)) = true) ->
  gear_new h tp gam L tg None = (h', n) ->
  let cone := cg_cone_at_z (cg_make tp module gam L) z in
  pitch_data h' n z = Ok (base_radius cone, tp_pitch_angle tp / 4, cone_angle cone) /\
  attr_at (rc_cone (h_rec h' (recipe_of h' n))) z = cone_angle cone /\
  rc_base (h_rec h' (recipe_of h' n)) = base_radius cone /\
  rc_trf (h_rec h' (recipe_of h' n)) z = cg_slice (cg_make tp module gam L) z.
Proof.
  intros h tp module gam L tg h' n z Ht E cone.
  destruct (new_facts _ _ _ _ _ _ _ _ eq_refl E) as (F1 & F2 & F3).
  assert (Ca : attr_at (cone_attr (num_teeth tp) gam L) z = cone_angle cone).
  { unfold cone, cg_cone_at_z, cg_cone_angle, cone_attr. cbn [cone_angle cg_gamma cg_make cg_teeth cg_height].
    destruct (Req_EM_T gam 0); reflexivity. }
  rewrite F1. split; [|split; [exact Ca | split; reflexivity]].
  unfold pitch_data. fold (recipe_of h' n). rewrite F1. cbn [rc_gen]. rewrite F2. unfold gen_call.
  cbn [gn_kind gn_cone gn_rp gn_pia]. rewrite Ca.
  assert (Hk : kd_conic (gn_kind (match tg with Some i => h_gen h i | None => conic_gen end)) = true).
  { destruct tg as [i|]; [apply (Ht i eq_refl) | reflexivity]. }
  rewrite Hk. reflexivity.
Qed.

(** Without a generator passed, or with the recipe of another Gear, no Gear changes. *)
Theorem C126_new_own : forall h tp gam L rec, reach h -> (forall r, rec = Some r -> (r < h_nr h)%nat) ->
  forall o, (o < h_no h)%nat -> same_profiles (fst (gear_new h tp gam L None rec)) o h o.
Proof.
  intros h tp gam L rec R Hr o Ho. pose proof (in_heap h o R Ho) as (A1 & A2 & A3).
  destruct rec as [r|]; apply same_frame; cbn -[Nat.eqb]; unfold upd.
  - destruct (Nat.eqb_spec o (h_no h)); [lia | reflexivity].
  - reflexivity.
  - destruct (Nat.eqb_spec (generator_of h o) (h_ng h)); [lia | reflexivity].
  - destruct (Nat.eqb_spec o (h_no h)); [lia | reflexivity].
  - destruct (Nat.eqb_spec (recipe_of h o) (h_nr h)); [lia | reflexivity].
  - destruct (Nat.eqb_spec (generator_of h o) (h_ng h)); [lia | reflexivity].
Qed.

(** ** C126: a generator of the class GearToothGenerator itself *)
(** The annotations ask for a GearToothGenerator, but a Gear made from an object of that very class, or given one by
    swap_tooth_generator, has no profile at all: TypeError at every height. *)
Theorem C126_plain_refuted : forall h tp gam L o tg, reach h -> (o < h_no h)%nat -> (tg < h_ng h)%nat ->
  kd_conic (gn_kind (h_gen h tg)) = false ->
  (let (h', n) := gear_new h tp gam L (Some tg) None in
   forall sv fs z, profile_at sv fs h' n z = Err TypeError) /\
  (exists h', swap_tooth_generator h o tg = Ok h' /\ forall sv fs z, profile_at sv fs h' o z = Err TypeError).
Proof.
  intros h tp gam L o tg R Ho Ht Hk. pose proof (in_heap h o R Ho) as (A1 & A2 & A3). split.
  - unfold gear_new. cbv zeta. intros sv fs z. unfold profile_at. heaps. unfold upd. rewrite ?Nat.eqb_refl.
    cbn [ob_rec]. rewrite ?Nat.eqb_refl. cbn [rc_gen]. rewrite ?Nat.eqb_refl. unfold gen_call.
    cbn [gn_kind gn_cone]. rewrite Hk. reflexivity.
  - unfold swap_tooth_generator. fold (recipe_of h o). fold (generator_of h o).
    destruct (gn_cone (h_gen h (generator_of h o))) as [c|] eqn:Ec; [|congruence].
    eexists; split; [reflexivity|]. intros sv fs z. unfold profile_at. heaps. unfold upd. rewrite ?Nat.eqb_refl.
    cbn [ob_rec]. rewrite ?Nat.eqb_refl. cbn [rc_gen]. rewrite ?Nat.eqb_refl. unfold gen_call.
    cbn [gn_kind gn_cone]. rewrite Hk. reflexivity.
Qed.

(** ** Examples *)
(** A generator of slanted lines and one of the class GearToothGenerator; a Gear of 10 teeth from the first; a
    default Gear of 20 teeth. *)
Definition ex_slanted : gen :=
  mkGen (mkKind true (fun rp pia ca => Ok (default_tooth rp pia (PI / 9) ca))) (Fixed 1) (Fixed (PI / 16)) (Some (Fixed 0)).
Definition ex_plain : gen :=
  mkGen (mkKind false (fun rp pia _ => Ok (plane_line_tooth rp pia (PI / 9)))) (Fixed 1) (Fixed (PI / 16)) None.
Definition ex_empty : heap := mkHeap (fun _ => conic_gen) (fun _ => mkRec 0 (Fixed 0) 1 1 1 1 0 0 0 1 (fun _ => mkG ORIGIN UNIT3X3 1 0))
  (fun _ => mkObj 0 0) 0 0 0.
Definition ex_h0 : heap := add_gen (add_gen ex_empty ex_slanted) ex_plain.
Definition ex_h1 : heap := fst (gear_new ex_h0 (mkTP 10 0 false) 0 1 (Some 0%nat) None).
Definition ex_h2 : heap := fst (gear_new ex_h1 (mkTP 20 0 false) 0 1 None None).

Lemma ex_h0_reach : reach ex_h0.
Proof. unfold ex_h0, ex_empty. repeat constructor. Qed.
Lemma ex_h1_reach : reach ex_h1.
Proof.
  apply reach_new; [apply ex_h0_reach | | discriminate]. intros i E. injection E as <-. cbn. lia.
Qed.
Lemma ex_h2_reach : reach ex_h2.
Proof. apply reach_new; [apply ex_h1_reach | discriminate | discriminate]. Qed.

(** Two Gears made from one generator: the Gear of 10 teeth has flanks for a pitch radius of 5, and for one of 10
    when the Gear of 20 teeth has been made, while its recipe still has the cone of radius 5. *)
Theorem C126_new_refuted :
  exists h o n tp, reach h /\ (o < h_no h)%nat /\ h_no h = n /\
  let h' := fst (gear_new h tp 0 1 (Some 0%nat) None) in
  (forall z, exists pia ca, pitch_data h o z = Ok (5, pia, ca)) /\
  (forall z, exists pia ca, pitch_data h' o z = Ok (10, pia, ca)) /\
  rc_base (h_rec h' (recipe_of h' o)) = 5 /\ rc_pitch (h_rec h' (recipe_of h' o)) = 2 * PI / 10.
Proof.
  exists ex_h1, 0%nat, 1%nat, (mkTP 20 0 false). split; [apply ex_h1_reach|].
  split; [cbn; lia|]. split; [reflexivity|]. cbv zeta.
  split; [|split; [|split]].
  - intros z. exists (2 * PI / 10 / 4), (attr_at (cone_attr 10 0 1) z).
    unfold pitch_data. cbn -[attr_at cone_attr]. unfold upd. cbn -[attr_at cone_attr]. unfold gen_call. cbn -[cone_attr attr_at].
    repeat f_equal. cbn. lra.
  - intros z. exists (2 * PI / 20 / 4), (attr_at (cone_attr 20 0 1) z).
    unfold pitch_data. cbn -[attr_at cone_attr]. unfold upd. cbn -[attr_at cone_attr]. unfold gen_call. cbn -[cone_attr attr_at].
    repeat f_equal. cbn. lra.
  - cbn. lra.
  - cbn. reflexivity.
Qed.

Example C126_swap_keeps_example : reach ex_h2 /\ (1 < h_no ex_h2)%nat /\ (0 < h_ng ex_h2)%nat /\ recipe_of ex_h2 0 <> recipe_of ex_h2 1.
Proof. split; [apply ex_h2_reach|]. cbn. split; [lia|]. split; [lia | discriminate]. Qed.
Example C126_swap_fresh_example : reach ex_h1 /\ (0 < h_ng ex_h1)%nat.
Proof. split; [apply ex_h1_reach | cbn; lia]. Qed.
Example C126_swap_pitch_example : exists h', reach ex_h2 /\ (1 < h_no ex_h2)%nat /\ (0 < h_ng ex_h2)%nat /\
  kd_conic (gn_kind (h_gen ex_h2 0)) = true /\ kd_conic (gn_kind (h_gen ex_h2 (generator_of ex_h2 1))) = true /\
  swap_tooth_generator ex_h2 1 0 = Ok h'.
Proof.
  eexists. split; [apply ex_h2_reach|]. split; [cbn; lia|]. split; [cbn; lia|]. split; [reflexivity|]. split; [reflexivity|].
  unfold swap_tooth_generator. cbn -[cone_attr]. reflexivity.
Qed.
Example C126_swap_back_example : exists h1 h2, reach ex_h2 /\ (1 < h_no ex_h2)%nat /\ (0 < h_ng ex_h2)%nat /\
  swap_tooth_generator ex_h2 1 0 = Ok h1 /\ swap_tooth_generator h1 1 (generator_of ex_h2 1) = Ok h2.
Proof.
  pose proof ex_h2_reach as R.
  assert (L1 : (1 < h_no ex_h2)%nat) by (cbn; lia). assert (L2 : (0 < h_ng ex_h2)%nat) by (cbn; lia).
  destruct (C126_swap_keeps _ _ _ R L1 L2) as (h1 & E1 & _).
  assert (R1 : reach h1) by (eapply reach_swap; eauto).
  assert (L3 : (1 < h_no h1)%nat /\ (2 < h_ng h1)%nat).
  { unfold swap_tooth_generator in E1. destruct (gn_cone _); [|discriminate]. injection E1 as <-. cbn. lia. }
  destruct (C126_swap_keeps h1 1 2 R1 (proj1 L3) (proj2 L3)) as (h2 & E2 & _).
  exists h1, h2. split; [exact R|]. split; [exact L1|]. split; [exact L2|]. split; [exact E1|]. exact E2.
Qed.
Example C126_swap_later_example : exists h', reach ex_h2 /\ (1 < h_no ex_h2)%nat /\ (0 < h_ng ex_h2)%nat /\
  swap_tooth_generator ex_h2 1 0 = Ok h'.
Proof. destruct C126_swap_pitch_example as (h' & A & B & C & _ & _ & D). exists h'. auto. Qed.
Example C126_copy_example : reach ex_h2 /\ (1 < h_no ex_h2)%nat.
Proof. split; [apply ex_h2_reach | cbn; lia]. Qed.
Example C126_new_example : reach ex_h2 /\ (0 < h_ng ex_h2)%nat /\ (1 < h_no ex_h2)%nat /\
  generator_of ex_h2 0 = 0%nat /\ generator_of ex_h2 1 <> 0%nat /\ kd_conic (gn_kind (h_gen ex_h2 0)) = true.
Proof. split; [apply ex_h2_reach|]. cbn. repeat split; try lia; discriminate. Qed.
Example C126_new_own_example : reach ex_h2 /\ (1 < h_no ex_h2)%nat /\ (0 < h_nr ex_h2)%nat.
Proof. split; [apply ex_h2_reach|]. cbn. lia. Qed.
Example C126_plain_refuted_example : reach ex_h2 /\ (0 < h_no ex_h2)%nat /\ (1 < h_ng ex_h2)%nat /\
  kd_conic (gn_kind (h_gen ex_h2 1)) = false.
Proof. split; [apply ex_h2_reach|]. cbn. repeat split; lia. Qed.
Example C126_new_cone_example : (forall i, Some 0%nat = Some i -> (i < h_ng ex_h1)%nat /\ kd_conic (gn_kind (h_gen ex_h1 i)) = true) /\
  exists h' n, gear_new ex_h1 (mkTP 20 0 false) (PI / 4) 3 (Some 0%nat) None = (h', n).
Proof. split; [intros i E; injection E as <-; cbn; split; [lia | reflexivity] | eexists; eexists; reflexivity]. Qed.
