(** C57, C59, C85: converted profiles and the patches of their side surfaces. *)
From Coq Require Import Reals ZArith Lra Lia List Bool Arith.
From Verif Require Import Num Vec Coords CoordsProps Bezier BezierLem BezierProps Interp Curve CurveLem ArcLem ArcProps Chain NurbsProps Build BuildProps Convert.
Import ListNotations.
Open Scope R_scope.

(** ** C57: ends of converted curves *)
Lemma fit_count_2 n samp : (2 <= n)%nat -> 0 <= samp -> (2 <= fit_count n samp)%nat.
Proof.
  intros Hn Hs. unfold fit_count. pose proof (ceilZ_bound ((INR n - 2) * 2 * samp)) as [B _].
  assert (0 <= INR n - 2) by (apply le_INR in Hn; cbn in Hn; lra).
  assert (0 <= (INR n - 2) * 2 * samp) by (apply Rmult_le_pos; lra).
  assert (0 <= ceilZ ((INR n - 2) * 2 * samp))%Z by (apply le_IZR; lra). lia.
Qed.
Lemma hd_map_seq {A} (f : nat -> A) n d : (1 <= n)%nat -> hd d (map f (seq 0 n)) = f 0%nat.
Proof. intros H. destruct n; [lia|]. reflexivity. Qed.
Lemma last_map_seq {A} (f : nat -> A) n d : (1 <= n)%nat -> last (map f (seq 0 n)) d = f (n - 1)%nat.
Proof. intros H. destruct n; [lia|]. rewrite seq_S, map_app. cbn [map]. rewrite last_last. f_equal. lia. Qed.
Lemma fit_target_ends c N : (2 <= N)%nat -> forall j, fit_target c N 0%nat j = coord (c 0) j /\ fit_target c N (N - 1)%nat j = coord (c 1) j.
Proof.
  intros H j. unfold fit_target. rewrite !linspace_nth by lia. split; do 2 f_equal.
  - cbn [INR]. ring.
  - pose proof (INR_pos_2 N H). field. lra.
Qed.
Lemma coords_vec p : V (coord p 0) (coord p 1) (coord p 2) = p.
Proof. destruct p; reflexivity. Qed.
Lemma fit_points_ends tg N Nd n x : (2 <= n)%nat ->
  fit_points tg N Nd n x 0%nat = tg 0%nat /\ fit_points tg N Nd n x (n - 1)%nat = tg (N - 1)%nat /\
  fit_weights Nd n x 0%nat = 1 /\ fit_weights Nd n x (n - 1)%nat = 1.
Proof.
  intros H. unfold fit_points, fit_weights.
  assert (G : forall (A : Type) (f : nat -> A) l p i, ~ In i l -> fold_left (fun p k => set_row p k (f k)) l p i = p i).
  { intros A f. induction l as [|k l IH]; intros p i N'; [reflexivity|]. cbn [fold_left]. rewrite IH by (intros I; apply N'; right; exact I).
    unfold set_row. destruct (Nat.eqb_spec i k) as [->|]; [|reflexivity]. exfalso. apply N'. left; reflexivity. }
  unfold for_range.
  assert (W : forall i l p, ~ In i l -> fold_left (fun w k => assign w k (x (Nd * (n - 2) + k - 1)%nat)) l p i = p i).
  { intros i l p. apply (G R (fun k => x (Nd * (n - 2) + k - 1)%nat)). }
  assert (I0 : ~ In 0%nat (seq 1 (n - 1 - 1))) by (rewrite in_seq; lia).
  assert (I1 : ~ In (n - 1)%nat (seq 1 (n - 1 - 1))) by (rewrite in_seq; lia).
  rewrite !W by assumption. rewrite !(G _ (fun k j => x (Nd * (k - 1) + j)%nat)) by assumption. unfold set_row.
  rewrite !Nat.eqb_refl. destruct (Nat.eqb_spec 0 (n - 1)); [lia|]. repeat split; reflexivity.
Qed.

(** Whatever the optimiser returns: control points from the start to the end of the curve, end weights 1. *)
Definition spans (c : nurb_curve) (p q : vec) : Prop :=
  (2 <= length (nc_points c))%nat /\ length (nc_weights c) = length (nc_points c) /\
  hd ORIGIN (nc_points c) = p /\ last (nc_points c) ORIGIN = q /\ hd 0 (nc_weights c) = 1 /\ last (nc_weights c) 0 = 1.
Theorem C57_fit_curve_ends opt c n samp : (2 <= n)%nat -> 0 <= samp ->
  let '(P, W) := fit_nurb_optim opt c n samp in length P = n /\ spans (mkNC P W true) (c 0) (c 1) /\
    nurbezier 0 P W = c 0 /\ nurbezier 1 P W = c 1.
Proof.
  intros Hn Hs. unfold fit_nurb_optim. set (N := fit_count n samp). set (x := opt _). pose proof (fit_count_2 n samp Hn Hs) as HN. fold N in HN.
  destruct (fit_points_ends (fit_target c N) N 3 n x Hn) as (E0 & E1 & W0 & W1).
  assert (SP : spans (mkNC (row_points n (fit_points (fit_target c N) N 3 n x)) (entries n (fit_weights 3 n x)) true) (c 0) (c 1)).
  { unfold spans. cbn [nc_points nc_weights]. unfold row_points, entries. rewrite !map_length, seq_length.
    rewrite !hd_map_seq, !last_map_seq by lia. rewrite E0, E1, W0, W1.
    destruct (fit_target_ends c N HN 0%nat) as [A0 B0]. destruct (fit_target_ends c N HN 1%nat) as [A1 B1].
    destruct (fit_target_ends c N HN 2%nat) as [A2 B2]. rewrite A0, A1, A2, B0, B1, B2, !coords_vec. repeat split; lia. }
  split; [unfold row_points; rewrite map_length, seq_length; reflexivity|]. split; [exact SP|].
  destruct SP as (L & LW & H0 & H1 & V0 & V1). cbn [nc_points nc_weights] in *.
  split.
  - rewrite <- H0. apply C17_starts_at_first; [lia|intros Z; rewrite Z in LW; cbn in LW; lia|rewrite V0; lra].
  - rewrite <- H1. apply C17_ends_at_last; [lia|intros Z; rewrite Z in LW; cbn in LW; lia|rewrite V1; lra].
Qed.

(** Inputs that are not already NURBS curves, or are and start and end where they evaluate to; transformed curves that
    start, end and are active as the image of their target. *)
Fixpoint convertible (i : cv_input) : Prop :=
  match i with
  | CPlain c => match c_shape c with SNurb P W => spans (mkNC P W true) (c_eval c 0) (c_eval c 1) | _ => True end
  | CTrans f t own => convertible t /\ c_eval own 0 = f (c_eval (cv_curve t) 0) /\ c_eval own 1 = f (c_eval (cv_curve t) 1) /\
      c_act own = c_act (cv_curve t)
  end.
Definition starts (i : cv_input) : vec := c_eval (cv_curve i) 0.
Definition ends (i : cv_input) : vec := c_eval (cv_curve i) 1.
Lemma hd_map {A B} (f : A -> B) l d e : l <> [] -> hd e (map f l) = f (hd d l).
Proof. destruct l; [contradiction|reflexivity]. Qed.
Lemma last_map {A B} (f : A -> B) l d e : l <> [] -> last (map f l) e = f (last l d).
Proof.
  induction l as [|a l IH]; [contradiction|]. intros _. destruct l as [|b l]; [reflexivity|]. apply IH. discriminate.
Qed.
Lemma spans_ne c p q : spans c p q -> nc_points c <> [] /\ nc_weights c <> [].
Proof. intros (L & LW & _). split; intros Z; rewrite Z in *; cbn in *; lia. Qed.
Lemma spans_transform f c p q : spans c p q -> spans (nc_transform f c) (f p) (f q).
Proof.
  intros H. destruct (spans_ne c p q H) as [N _]. destruct H as (L & LW & H0 & H1 & V0 & V1).
  unfold spans, nc_transform. cbn [nc_points nc_weights]. rewrite map_length, (hd_map f _ ORIGIN), (last_map f _ ORIGIN) by exact N.
  rewrite H0, H1. repeat split; assumption.
Qed.
Lemma hd_rev {A} (l : list A) d : hd d (rev l) = last l d.
Proof. rewrite <- (rev_involutive l) at 2. destruct (rev l) as [|a r]; [reflexivity|]. cbn [rev hd]. rewrite last_last. reflexivity. Qed.
Lemma last_rev {A} (l : list A) d : last (rev l) d = hd d l.
Proof. rewrite <- hd_rev, rev_involutive. reflexivity. Qed.
Lemma spans_reverse c p q : spans c p q -> spans (nc_reverse c) q p.
Proof.
  intros (L & LW & H0 & H1 & V0 & V1). unfold spans, nc_reverse. cbn [nc_points nc_weights].
  rewrite !rev_length, !hd_rev, !last_rev. repeat split; assumption.
Qed.
(** Every conversion starts and ends with its curve, whatever the optimiser does. *)
Theorem C57_convert_ends opt n samp i : (2 <= n)%nat -> 0 <= samp -> convertible i ->
  let r := convert_curve opt n samp i in
  spans r (starts i) (ends i) /\ nc_active r = c_act (cv_curve i) /\
  nurbezier 0 (nc_points r) (nc_weights r) = starts i /\ nurbezier 1 (nc_points r) (nc_weights r) = ends i.
Proof.
  intros Hn Hs HC r.
  assert (G : spans r (starts i) (ends i) /\ nc_active r = c_act (cv_curve i)).
  { unfold r. clear r. induction i as [c|f t IH own]; cbn [convertible] in HC.
    - pose proof (C57_fit_curve_ends (opt c) (c_eval c) n samp Hn Hs) as FE.
      cbn [convert_curve cv_curve]. unfold starts, ends. cbn [cv_curve].
      destruct (fit_nurb_optim (opt c) (c_eval c) n samp) as [P W]. destruct FE as (_ & FE & _).
      destruct (c_shape c) as [f|p0 p1|ra a ce m|P' W'].
      + split; [exact FE|reflexivity].
      + split; [|reflexivity]. unfold spans. cbn. repeat split; lia.
      + destruct (Rlt_dec (Rabs a) PI); [|split; [exact FE|reflexivity]].
        unfold calc_nurbezier_arc. split; [|reflexivity]. unfold spans. cbn [nc_points nc_weights length hd last]. repeat split; lia.
      + split; [exact HC|reflexivity].
    - destruct HC as (HT & E0 & E1 & EA). destruct (IH HT) as [S A]. cbn [convert_curve].
      unfold starts, ends in *. cbn [cv_curve]. rewrite E0, E1, EA. split; [apply spans_transform, S|exact A]. }
  destruct G as [S A]. split; [exact S|]. split; [exact A|].
  destruct (spans_ne _ _ _ S) as [_ N]. destruct S as (L & LW & H0 & H1 & V0 & V1). rewrite <- H0, <- H1.
  split; [apply C17_starts_at_first|apply C17_ends_at_last]; try (symmetry; assumption); try assumption; rewrite ?V0, ?V1; lra.
Qed.

(** *** Head to tail *)
Fixpoint connected (l : list (vec * vec)) : Prop :=
  match l with
  | s :: ((t :: _) as r) => snd s = fst t /\ connected r
  | _ => True
  end.
Definition follows (c : nurb_curve) (s : vec * vec) : Prop := spans c (fst s) (snd s).
Lemma connected_app_l a b : connected (a ++ b) -> connected a.
Proof. induction a as [|s a IH]; [intros; exact I|]. destruct a as [|t a]; [intros; exact I|]. intros [E H]. split; [exact E|apply IH, H]. Qed.
Lemma connected_app_r a b : connected (a ++ b) -> connected b.
Proof. induction a as [|s a IH]; [intros H; exact H|]. intros H. apply IH. destruct a; cbn in *; [destruct b; [exact I|apply H]|apply H]. Qed.
Lemma connected_map f l : connected l -> connected (map (fun s => (f (fst s), f (snd s)) : vec * vec) l).
Proof.
  induction l as [|s l IH]; [intros; exact I|]. destruct l as [|t l]; [intros; exact I|]. intros [E H].
  split; [cbn; rewrite E; reflexivity|apply IH, H].
Qed.
Lemma follows_joints l segs : Forall2 follows l segs -> connected segs -> joints (map nc_pair l).
Proof.
  induction 1 as [|c s l segs H F IH]; [intros; exact I|].
  destruct F as [|d t l segs H' F]; [intros; exact I|]. intros [E C].
  cbn [map joints nc_pair fst snd]. destruct H as (_ & _ & _ & H1 & _ & V1). destruct H' as (_ & _ & H0 & _ & V0 & _).
  rewrite H1, H0, V1, V0. split; [exact E|]. split; [reflexivity|apply IH, C].
Qed.
Lemma follows_ok l segs : Forall2 follows l segs -> l <> [] -> chain_ok (map nc_pair l).
Proof.
  intros F N. split; [destruct l; [contradiction|discriminate]|]. induction F as [|c s l segs H F IH]; [constructor|].
  cbn [map]. constructor; [|destruct l; [constructor|apply IH; discriminate]].
  destruct H as (L & LW & _). split; cbn; assumption.
Qed.

(** *** The mirrored flank *)
Lemma set_points_eq p W k l : Forall (fun c => (2 <= length (fst c))%nat) l ->
  map fst (set_points_from p k l) = map fst (nb_from_points p W (knots_from k l)) /\ map snd (set_points_from p k l) = map snd l.
Proof.
  intros F. revert k. induction F as [|[ps ws] l H F IH]; intros k; [split; reflexivity|].
  cbn [set_points_from knots_from map fst snd] in *. destruct (IH (length ps - 1 + k)%nat) as [A B]. split; [|f_equal; exact B].
  destruct l as [|[ps2 ws2] l]; cbn [knots_from nb_from_points map fst] in *.
  - f_equal. f_equal. lia.
  - f_equal; [f_equal; lia|exact A].
Qed.
Definition map_member (f : vec -> vec) (c : list vec * list R) : list vec * list R := (map f (fst c), snd c).
Lemma removelast_map {A B} (f : A -> B) l : removelast (map f l) = map f (removelast l).
Proof. induction l as [|a l IH]; [reflexivity|]. destruct l as [|b l]; [reflexivity|]. cbn [map removelast] in *. rewrite IH. reflexivity. Qed.
Lemma nb_points_map f l : chain_ok l -> nb_points (map (map_member f) l) = map f (nb_points l).
Proof.
  intros [N F]. unfold nb_points. rewrite map_app. f_equal.
  - clear N. induction l as [|c l IH]; [reflexivity|]. cbn [map flat_map]. inversion F; subst. rewrite map_app, IH by assumption. unfold map_member at 1. cbn [fst]. rewrite removelast_map. reflexivity.
  - cbn [map]. f_equal. rewrite (last_map (map_member f) l ([], [])) by exact N. unfold map_member. cbn [fst].
    assert (M : member_ok (last l ([], []))).
    { rewrite Forall_forall in F. apply F. rewrite (app_removelast_last ([], []) N) at 2. apply in_or_app. right. left. reflexivity. }
    destruct M as [M _]. apply last_map. intros Z. rewrite Z in M. cbn in M. lia.
Qed.
Lemma map_member_ok f l : chain_ok l -> joints l -> chain_ok (map (map_member f) l) /\ joints (map (map_member f) l) /\
  nb_knots (map (map_member f) l) = nb_knots l.
Proof.
  intros [N F] J. split; [split|split].
  - destruct l; [contradiction|discriminate].
  - apply Forall_map. eapply Forall_impl; [|exact F]. intros c [A B]. split; cbn; rewrite map_length; assumption.
  - induction l as [|c l IH]; [exact I|]. destruct l as [|d l]; [exact I|]. destruct J as (J1 & J2 & J3).
    inversion F as [|? ? M1 F']; subst. inversion F' as [|? ? M2 F'']; subst. destruct M1 as [M1 _]. destruct M2 as [M2 _].
    cbn [map joints]. unfold map_member at 1 2 3 4. cbn [fst snd].
    rewrite (last_map f _ ORIGIN), (hd_map f _ ORIGIN), J1 by (intros Z; rewrite Z in *; cbn in *; lia).
    split; [reflexivity|]. split; [exact J2|]. apply IH; [discriminate|exact F'|exact J3].
  - unfold nb_knots. generalize 0%nat. clear. induction l as [|c l IH]; intros k; [reflexivity|]. cbn [map knots_from].
    unfold map_member at 1 2. cbn [fst]. rewrite map_length. f_equal. apply IH.
Qed.
Lemma set_points_map f l : chain_ok l -> joints l -> nb_set_points l (map f (nb_points l)) = Ok (map (map_member f) l).
Proof.
  intros C J. unfold nb_set_points. rewrite map_length, Nat.eqb_refl. f_equal.
  destruct (map_member_ok f l C J) as (C2 & J2 & K).
  assert (F2 : Forall (fun c => (2 <= length (fst c))%nat) l) by (destruct C as [_ F]; eapply Forall_impl; [|exact F]; intros c [A _]; exact A).
  destruct (set_points_eq (map f (nb_points l)) (nb_weights (map (map_member f) l)) 0%nat l F2) as [A B].
  fold (nb_knots l) in A. rewrite <- K, <- nb_points_map, C40_read_split in A by assumption.
  rewrite nb_points_map in A by exact C.
  assert (EQ : forall a b : nurbs, map fst a = map fst b -> map snd a = map snd b -> a = b).
  { clear. induction a as [|[x y] a IH]; intros [|[x2 y2] b]; cbn; intros H1 H2; try discriminate; [reflexivity|].
    injection H1 as -> H1. injection H2 as -> H2. f_equal. apply IH; assumption. }
  apply EQ; [exact A|]. rewrite B. rewrite map_map. apply map_ext. intros; reflexivity.
Qed.
Lemma tooth_mirror_eq tooth segs : Forall2 follows tooth segs -> connected segs -> tooth <> [] ->
  tooth_mirror tooth = Ok (rev (map (fun c => nc_reverse (nc_transform mirror_y c)) tooth)).
Proof.
  intros F C N. unfold tooth_mirror. destruct tooth as [|c0 tooth]; [contradiction|]. set (l := c0 :: tooth) in *.
  rewrite set_points_map; [|eapply follows_ok; eassumption|eapply follows_joints; eassumption].
  cbn [bind]. do 2 f_equal. rewrite map_map. generalize l. clear. induction l as [|c l IH]; [reflexivity|]. cbn [map combine]. rewrite IH. reflexivity.
Qed.

(** *** The closed profile *)
Definition leg (i : cv_input) : bool * (vec * vec) := (c_act (cv_curve i), (starts i, ends i)).
Definition back (s : bool * (vec * vec)) : bool * (vec * vec) := (fst s, (snd (snd s), fst (snd s))).
Definition image (f : vec -> vec) (s : vec * vec) : vec * vec := (f (fst s), f (snd s)).
(** The mirror image in the plane y = 0. *)
Definition across (p : vec) : vec := V (vx p) (- vy p) (vz p).
(** The route along the input curves: root, flank, tip, mirrored flank backwards, outside ring. *)
Definition route (p : cv_profile) : list (vec * vec) :=
  map snd (filter fst
    (leg (cp_rd p) :: map leg (cp_tooth p) ++ leg (cp_ra p) ::
     rev (map (fun i => back (c_act (cv_curve i), image across (starts i, ends i))) (cp_tooth p)) ++
     [back (leg (cp_ro2 p)); back (leg (cp_ro p)); leg (cp_ro0 p)])).
Definition all_convertible (p : cv_profile) : Prop :=
  Forall convertible (cp_tooth p) /\ convertible (cp_ra p) /\ convertible (cp_rd p) /\ convertible (cp_ro p) /\
  convertible (cp_ro0 p) /\ convertible (cp_ro2 p).

Lemma active_follow opt n samp l : (2 <= n)%nat -> 0 <= samp -> Forall convertible l ->
  Forall2 follows (convert_list opt n samp true l) (map snd (filter fst (map leg l))) /\
  Forall (fun c => nc_active c = true) (convert_list opt n samp true l).
Proof.
  intros Hn Hs F. unfold convert_list. induction F as [|i l H F IH]; [split; constructor|].
  cbn [filter map]. unfold leg at 1. cbn [fst]. rewrite orb_false_r.
  destruct (C57_convert_ends opt n samp i Hn Hs H) as (S & A & _).
  destruct (c_act (cv_curve i)) eqn:E; [|exact IH]. destruct IH as [IH1 IH2].
  cbn [map snd]. split; constructor; try assumption.
Qed.
Lemma Forall2_app' {A B} (P : A -> B -> Prop) a b c d : Forall2 P a b -> Forall2 P c d -> Forall2 P (a ++ c) (b ++ d).
Proof. induction 1; intros; [assumption|]. constructor; auto. Qed.
Lemma Forall2_len {A B} (P : A -> B -> Prop) a b : Forall2 P a b -> length a = length b.
Proof. induction 1; cbn; congruence. Qed.
Lemma Forall2_rev' {A B} (P : A -> B -> Prop) a b : Forall2 P a b -> Forall2 P (rev a) (rev b).
Proof. induction 1; [constructor|]. cbn. apply Forall2_app'; [assumption|]. constructor; [assumption|constructor]. Qed.
Lemma filter_all {A} (f : A -> bool) l : Forall (fun c => f c = true) l -> filter f l = l.
Proof. induction 1 as [|a l H F IH]; [reflexivity|]. cbn. rewrite H, IH. reflexivity. Qed.
Lemma filter_rev' {A} (f : A -> bool) l : filter f (rev l) = rev (filter f l).
Proof. induction l as [|a l IH]; [reflexivity|]. cbn [rev filter]. rewrite filter_app, IH. cbn. destruct (f a); cbn; [reflexivity|apply app_nil_r]. Qed.

(** If the active input curves run head to tail around the tooth, so do the members that the side surface is made of, whatever
    the optimiser returned and wherever the gear is placed. *)
Theorem C57_profile_joined opt n samp gt p : (2 <= n)%nat -> 0 <= samp -> all_convertible p ->
  existsb (fun i => c_act (cv_curve i)) (cp_tooth p) = true -> connected (route p) ->
  exists l, nurb_profile_closed opt n samp gt p = Ok l /\
    chain_ok (surface_members l) /\ joints (surface_members l) /\
    Forall2 follows (filter nc_active l) (map (image gt) (route p)).
Proof.
  intros Hn Hs (CT & CA & CD & CO & C0 & C2) EX CN.
  destruct (active_follow opt n samp (cp_tooth p) Hn Hs CT) as [FT AT].
  set (tooth := convert_list opt n samp true (cp_tooth p)) in *.
  assert (TN : tooth <> []).
  { unfold tooth, convert_list. clear - EX. induction (cp_tooth p) as [|i l IH]; [discriminate|]. cbn in *. rewrite orb_false_r.
    destruct (c_act (cv_curve i)); [discriminate|]. apply IH, EX. }
  set (ts := map snd (filter fst (map leg (cp_tooth p)))) in *.
  assert (SING : forall i, convertible i -> let r := nc_transform gt (convert_curve opt 4 (3 / 2) i) in
            Forall2 follows (filter nc_active [r]) (map (image gt) (map snd (filter fst [leg i]))) /\
            Forall2 follows (filter nc_active [nc_reverse r]) (map (image gt) (map snd (filter fst [back (leg i)])))).
  { intros i H r. destruct (C57_convert_ends opt 4 (3 / 2) i ltac:(lia) ltac:(lra) H) as (S & A & _).
    unfold r. cbn [filter nc_transform nc_reverse nc_active]. rewrite A. unfold leg, back. cbn [fst snd].
    destruct (c_act (cv_curve i)); cbn [map snd]; [|split; constructor].
    split; (constructor; [|constructor]).
    - unfold follows, image. cbn [fst snd]. apply (spans_transform gt), S.
    - unfold follows, image. cbn [fst snd]. apply spans_reverse, (spans_transform gt), S. }
  assert (RT : route p = map snd (filter fst [leg (cp_rd p)]) ++ ts ++ map snd (filter fst [leg (cp_ra p)]) ++
     rev (map (fun s => (across (snd s), across (fst s))) ts) ++ map snd (filter fst [back (leg (cp_ro2 p))]) ++
     map snd (filter fst [back (leg (cp_ro p))]) ++ map snd (filter fst [leg (cp_ro0 p)])).
  { unfold route.
    match goal with |- map snd (filter fst (?a :: ?b ++ ?c :: ?d ++ [?e; ?f; ?g])) = _ =>
      change (a :: b ++ c :: d ++ [e; f; g]) with ([a] ++ b ++ [c] ++ d ++ [e] ++ [f] ++ [g]) end.
    rewrite !filter_app, !map_app, filter_rev', map_rev. unfold ts. f_equal. f_equal. f_equal. f_equal. f_equal. clear.
    induction (cp_tooth p) as [|i l IH]; [reflexivity|]. cbn [map filter]. unfold leg at 1, back at 1. cbn [fst snd].
    destruct (c_act (cv_curve i)); cbn [map]; rewrite IH; reflexivity. }
  assert (CT' : connected ts).
  { rewrite RT in CN. apply connected_app_r in CN. apply connected_app_l in CN. exact CN. }
  unfold nurb_profile_closed. fold tooth. rewrite (tooth_mirror_eq tooth ts FT CT' TN). cbn [bind].
  eexists. split; [reflexivity|].
  match goal with |- chain_ok (surface_members ?x) /\ _ => set (l := x) end.
  assert (FL : Forall2 follows (filter nc_active l) (map (image gt) (route p))).
  { unfold l. rewrite RT.
    match goal with |- context [filter nc_active (?a :: ?b ++ ?c :: ?d ++ [?e; ?f; ?g])] =>
      change (a :: b ++ c :: d ++ [e; f; g]) with ([a] ++ b ++ [c] ++ d ++ [e] ++ [f] ++ [g]) end.
    rewrite !filter_app, !map_app.
    apply Forall2_app'; [apply SING, CD|]. apply Forall2_app'.
    { rewrite (filter_all nc_active) by (apply Forall_map; exact AT).
      clear - FT. induction FT; cbn [map]; constructor; [|assumption]. apply spans_transform. assumption. }
    apply Forall2_app'; [apply SING, CA|]. apply Forall2_app'.
    { rewrite (filter_all nc_active) by (apply Forall_map; apply Forall_rev; apply Forall_map; exact AT).
      rewrite !map_rev. apply Forall2_rev'. clear - FT. induction FT; cbn [map]; constructor; [|assumption].
      unfold follows, image. cbn [fst snd]. apply spans_transform, spans_reverse, spans_transform. assumption. }
    apply Forall2_app'; [apply SING, C2|]. apply Forall2_app'; [apply SING, CO|]. apply SING, C0. }
  split; [|split; [|exact FL]].
  - unfold surface_members. eapply follows_ok; [exact FL|]. intros Z. rewrite Z in FL.
    assert (L0 : length (map (image gt) (route p)) = 0%nat) by (inversion FL as [E|]; reflexivity).
    rewrite map_length, RT, !app_length in L0. apply Forall2_len in FT. destruct tooth; [contradiction|]. cbn [length] in FT. lia.
  - unfold surface_members. eapply follows_joints; [exact FL|]. apply connected_map, CN.
Qed.

(** Curves that are already NURBS curves are taken over with all their control points even if they are trimmed, and of a trimmed
    transformed curve the whole target is converted: these do not end where the curve did. *)
Theorem C57_trimmed_refuted : exists opt n samp c d, (2 <= n)%nat /\ 0 <= samp /\ fresh c /\ fresh d /\
  nurbezier 1 (nc_points (convert_curve opt n samp (CPlain c))) (nc_weights (convert_curve opt n samp (CPlain c))) <> c_eval c 1 /\
  let tr := CTrans (fun p => p) (CPlain (line_curve ORIGIN RIGHT true)) d in
  c_fun d = c_fun (line_curve ORIGIN RIGHT true) /\
  nurbezier 1 (nc_points (convert_curve opt n samp tr)) (nc_weights (convert_curve opt n samp tr)) <> c_eval d 1.
Proof.
  set (c := new_curve (SNurb [ORIGIN; RIGHT] [1; 1]) true 0 (1 / 2) 2).
  set (d := new_curve (SGen (c_fun (line_curve ORIGIN RIGHT true))) true 0 (1 / 2) 2).
  exists (fun _ _ _ => 0), 2%nat, 0, c, d.
  assert (FC : fresh c) by apply new_fresh. assert (FD : fresh d) by apply new_fresh.
  assert (EC : c_eval c 1 = V (1 / 2) 0 0).
  { rewrite fresh_end by (assumption || (cbn; lia)). change (c_fun c (c_t1 c)) with (nurbezier (1 / 2) [ORIGIN; RIGHT] [1; 1]).
    unfold nurbezier. apply vec_eq; cbv -[Rplus Rmult Rminus Ropp Rdiv Rinv IZR]; field; lra. }
  assert (ED : c_eval d 1 = V (1 / 2) 0 0).
  { rewrite fresh_end by (assumption || (cbn; lia)). change (c_fun d (c_t1 d)) with (shape_fun (SLine ORIGIN RIGHT) (1 / 2)).
    unfold shape_fun. apply vec_eq; cbv -[Rplus Rmult Rminus Ropp Rdiv Rinv IZR]; lra. }
  split; [lia|]. split; [lra|]. split; [exact FC|]. split; [exact FD|]. split; [|split; [reflexivity|]].
  - change (convert_curve _ _ _ (CPlain c)) with (mkNC [ORIGIN; RIGHT] [1; 1] true). cbn [nc_points nc_weights].
    rewrite C17_ends_at_last, EC by (try discriminate; try reflexivity; cbn; lra). cbn [last]. intros Q. apply (f_equal vx) in Q. cbn in Q. lra.
  - cbn [convert_curve].
    change (c_shape (line_curve ORIGIN RIGHT true)) with (SLine ORIGIN RIGHT). cbv iota beta. unfold nc_transform. cbn [nc_points nc_weights map].
    rewrite C17_ends_at_last, ED by (try discriminate; try reflexivity; cbn; lra). cbn [last].
    rewrite line_eval. intros Q. apply (f_equal vx) in Q. cbn in Q. lra.
Qed.
(** With force_2D the ends are those of the curve only if its end points have the mean height of the samples. *)
Theorem C57_force_2D_ends opt c n samp : (2 <= n)%nat -> 0 <= samp ->
  let '(P, W) := fit_nurb_optim_2D opt c n samp in
  let z := sumn (fit_count n samp) (fun i => fit_target c (fit_count n samp) i 2%nat) / INR (fit_count n samp) in
  spans (mkNC P W true) (V (vx (c 0)) (vy (c 0)) z) (V (vx (c 1)) (vy (c 1)) z).
Proof.
  intros Hn Hs. unfold fit_nurb_optim_2D. set (N := fit_count n samp). set (x := opt _). pose proof (fit_count_2 n samp Hn Hs) as HN. fold N in HN.
  destruct (fit_points_ends (fit_target c N) N 2 n x Hn) as (E0 & E1 & W0 & W1).
  unfold spans. cbn [nc_points nc_weights]. unfold entries. rewrite !map_length, seq_length.
  rewrite !hd_map_seq, !last_map_seq by lia. rewrite E0, E1, W0, W1.
  destruct (fit_target_ends c N HN 0%nat) as [A0 B0]. destruct (fit_target_ends c N HN 1%nat) as [A1 B1].
  rewrite A0, A1, B0, B1. repeat split; lia.
Qed.

(** A triangular tooth on an outside ring: all hypotheses of the theorems hold. *)
Definition ex_line (p q : vec) : cv_input := CPlain (line_curve p q true).
Definition ex_profile : cv_profile :=
  mkCP [ex_line (V 5 (-1) 0) (V 6 (-1) 0); CPlain (line_curve (V 6 (-1) 0) (V 6 (-1) 0) false); ex_line (V 6 (-1) 0) (V 7 (-1 / 2) 0)]
    (ex_line (V 7 (-1 / 2) 0) (V 7 (1 / 2) 0)) (ex_line (V 5 (-2) 0) (V 5 (-1) 0)) (ex_line (V 4 (-2) 0) (V 4 1 0))
    (ex_line (V 4 (-2) 0) (V 5 (-2) 0)) (ex_line (V 4 1 0) (V 5 1 0)).
Lemma line_ends p q : c_eval (line_curve p q true) 0 = p /\ c_eval (line_curve p q true) 1 = q.
Proof. rewrite !line_eval. split; destruct p, q; apply vec_eq; cbn; ring. Qed.
Example C57_profile_example : all_convertible ex_profile /\ connected (route ex_profile) /\ length (route ex_profile) = 9%nat /\
  existsb (fun i => c_act (cv_curve i)) (cp_tooth ex_profile) = true.
Proof.
  split; [|split; [|split]]; try reflexivity.
  - repeat split; repeat constructor.
  - unfold route, ex_profile, ex_line, leg, back, image, starts, ends. cbn [cp_rd cp_ra cp_tooth cp_ro cp_ro0 cp_ro2 cv_curve map rev app filter fst snd].
    change (c_act (line_curve (V 6 (-1) 0) (V 6 (-1) 0) false)) with false.
    repeat match goal with |- context [c_act (line_curve ?p ?q true)] => change (c_act (line_curve p q true)) with true end.
    cbv iota. cbn [map snd connected fst]. repeat match goal with |- context [c_eval (line_curve ?p ?q true) 0] => rewrite (proj1 (line_ends p q)) end.
    repeat match goal with |- context [c_eval (line_curve ?p ?q true) 1] => rewrite (proj2 (line_ends p q)) end.
    unfold across. cbn [vx vy vz]. repeat split; f_equal; lra.
Qed.

(** ** C59: patches *)
Lemma slice_nil {A} i j : slice (@nil A) i j = [].
Proof. unfold slice. rewrite skipn_nil, firstn_nil. reflexivity. Qed.
Definition patch_row (r : nat) (p : list (list vec) * list (list R)) : list vec * list R := (nth r (fst p) [], nth r (snd p) []).
(** Row [r] of the patches is the NURBS curve with row [r] of the net as its control points. *)
Theorem C59_rows pts ws knots r :
  map (patch_row r) (get_patches pts ws knots) = nb_from_points (nth r pts []) (nth r ws []) knots.
Proof.
  assert (N : forall A (l : list (list A)) i j, nth r (map (fun row => slice row i j) l) [] = slice (nth r l []) i j).
  { intros A l i j. rewrite <- (map_nth (fun row => slice row i j)). rewrite slice_nil. reflexivity. }
  induction knots as [|a [|b k] IH]; [reflexivity|reflexivity|]. cbn [get_patches nb_from_points map] in *. rewrite IH.
  unfold patch_row at 1. cbn [fst snd]. rewrite !N. reflexivity.
Qed.
Lemma slice_hd {A} (l : list A) i j d : (i < j)%nat -> hd d (slice l i j) = nth i l d.
Proof.
  intros H. unfold slice. replace (j - i)%nat with (S (j - i - 1)) by lia. generalize (j - i - 1)%nat. clear. revert l.
  induction i as [|i IH]; intros l n; destruct l; try reflexivity. apply IH.
Qed.
Lemma from_points_joints P W r a b : ascending a r b -> (b < length P)%nat -> length W = length P ->
  joints (nb_from_points P W (a :: r)) /\ Forall member_ok (nb_from_points P W (a :: r)) /\ length (nb_from_points P W (a :: r)) = length r.
Proof.
  revert a. induction r as [|x r IH]; intros a H L LW; [repeat split; constructor|]. destruct H as [H1 H2].
  destruct (IH x H2 L LW) as (J & F & LL).
  assert (XB : (x <= b)%nat) by (clear - H2; revert x H2; induction r as [|y r IH]; intros x H; cbn in H; [lia|destruct H as [? H]; apply IH in H; lia]).
  cbn [nb_from_points length map]. fold (nb_from_points P W (x :: r)). split; [|split; [|cbn; f_equal; exact LL]].
  - destruct r as [|y r]; [exact I|].
    change (nb_from_points P W (x :: y :: r)) with ((slice P x (y + 1), slice W x (y + 1)) :: nb_from_points P W (y :: r)) in *.
    cbn [joints]. fold (nb_from_points P W (y :: r)).
    destruct H2 as [H2 H3]. cbn [fst snd].
    assert (YB : (y <= b)%nat) by (clear - H3; revert y H3; induction r as [|z r IH]; intros y H; cbn in H; [lia|destruct H as [? H]; apply IH in H; lia]).
    replace (x + 1)%nat with (S x) by lia. rewrite !slice_last, !slice_hd by lia. split; [reflexivity|]. split; [reflexivity|exact J].
  - constructor; [|exact F]. split; cbn [fst snd]; rewrite !slice_length by lia; lia.
Qed.

(** The patches cover every row from its first to its last control point; neighbouring patches share a column. *)
Theorem C59_tiling pts ws r k b : ascending 0 k b -> k <> [] -> (r < length pts)%nat ->
  length (nth r pts []) = S b -> length (nth r ws []) = S b ->
  let rows := map (patch_row r) (get_patches pts ws (0%nat :: k)) in
  length (get_patches pts ws (0%nat :: k)) = length k /\
  nb_points rows = nth r pts [] /\ nb_weights rows = nth r ws [] /\ nb_knots rows = 0%nat :: k /\ chain_ok rows /\ joints rows.
Proof.
  intros A N R LP LW rows. unfold rows. rewrite C59_rows.
  destruct (from_points_joints (nth r pts []) (nth r ws []) k 0 b A ltac:(lia) ltac:(lia)) as (J & _ & L).
  destruct (C40_split_read (nth r pts []) (nth r ws []) k) as (E1 & E2 & E3 & E4); try assumption; [|lia|].
  { rewrite LP. replace (S b - 1)%nat with b by lia. exact A. }
  split; [|auto]. rewrite <- L, <- (C59_rows pts ws (0%nat :: k) r), map_length. reflexivity.
Qed.
(** Two layers: the patches are the members of the two profiles, if both have the same numbers of points in the same members. *)
Theorem C59_members stack pts ws knots r l : side_surface_two_layers stack = Ok (pts, ws, knots) ->
  nth_error stack r = Some l -> chain_ok l -> joints l -> nb_knots l = nb_knots (hd [] stack) ->
  map (patch_row r) (get_patches pts ws knots) = l.
Proof.
  intros H NE C J K. destruct stack as [|f stack]; [discriminate|]. unfold side_surface_two_layers in H.
  destruct (equal_lengths _); [|discriminate]. injection H as <- <- <-. rewrite C59_rows. cbn [hd] in K. rewrite <- K.
  assert (E1 : nth r (map nb_points (f :: stack)) [] = nb_points l) by (apply nth_error_nth, map_nth_error, NE).
  assert (E2 : nth r (map nb_weights (f :: stack)) [] = nb_weights l) by (apply nth_error_nth, map_nth_error, NE).
  cbn [map] in E1, E2. rewrite E1, E2. apply C40_read_split; assumption.
Qed.
(** Equal numbers of points in total are enough for the surface to be built, but not for this. *)
Theorem C59_members_refuted : exists stack pts ws knots l, side_surface_two_layers stack = Ok (pts, ws, knots) /\
  nth_error stack 1 = Some l /\ Forall (fun m => chain_ok m /\ joints m) stack /\ map (patch_row 1) (get_patches pts ws knots) <> l.
Proof.
  set (a := ([V 0 0 0; V 1 0 0], [1; 1]) : list vec * list R). set (b := ([V 1 0 0; V 2 0 0; V 3 0 0], [1; 1; 1]) : list vec * list R).
  set (c := ([V 0 0 1; V 1 0 1; V 2 0 1], [1; 1; 1]) : list vec * list R). set (d := ([V 2 0 1; V 3 0 1], [1; 1]) : list vec * list R).
  exists [[a; b]; [c; d]], [nb_points [a; b]; nb_points [c; d]], [nb_weights [a; b]; nb_weights [c; d]], (nb_knots [a; b]), [c; d].
  split; [reflexivity|]. split; [reflexivity|]. split.
  - repeat constructor; cbn; try discriminate; lia.
  - cbn. unfold c. intros Q. injection Q. discriminate.
Qed.
(** More than two layers: the first and the last row of the fitted net are the first and the last profile (C57_surface_ends),
    so their patches are again the members. *)

(** Every pair of a tooth, a segment and a patch other than the last three gives one face. *)
Theorem C59_faces n nz np pitch f : In f (side_faces n nz np pitch) <->
  exists j k i, (j < Z.to_nat n)%nat /\ (k + 1 < nz)%nat /\ (i + 3 < np)%nat /\ f = (k, i, pitch * INR j * 180 / PI).
Proof.
  unfold side_faces. rewrite in_flat_map. split.
  - intros (j & Hj & H). apply in_flat_map in H. destruct H as (k & Hk & H). apply in_map_iff in H. destruct H as (i & <- & Hi).
    apply in_seq in Hj, Hk, Hi. exists j, k, i. repeat split; lia.
  - intros (j & k & i & Hj & Hk & Hi & ->). exists j. split; [apply in_seq; lia|]. apply in_flat_map. exists k.
    split; [apply in_seq; lia|]. apply in_map_iff. exists i. split; [reflexivity|apply in_seq; lia].
Qed.
Theorem C59_face_count n nz np pitch : length (side_faces n nz np pitch) = (Z.to_nat n * ((nz - 1) * (np - 3)))%nat.
Proof.
  unfold side_faces. assert (G : forall A B (f : A -> list B) c l, (forall x, length (f x) = c) -> length (flat_map f l) = (length l * c)%nat).
  { intros A B f c l H. induction l as [|x l IH]; [reflexivity|]. cbn. rewrite app_length, H, IH. reflexivity. }
  rewrite (G _ _ _ ((nz - 1) * (np - 3))%nat), seq_length; [reflexivity|]. intros j.
  rewrite (G _ _ _ (np - 3)%nat), seq_length; [reflexivity|]. intros k. rewrite map_length, seq_length. reflexivity.
Qed.
(** With the outside ring active, the last three patches are its two connectors and its arc, so the others are exactly the faces of
    the tooth: root, flank, tip and mirrored flank, as far as they are active. *)
Theorem C59_tooth_faces opt n samp gt p l : nurb_profile_closed opt n samp gt p = Ok l ->
  convertible (cp_ro p) -> convertible (cp_ro0 p) -> convertible (cp_ro2 p) ->
  c_act (cv_curve (cp_ro p)) = true -> c_act (cv_curve (cp_ro0 p)) = true -> c_act (cv_curve (cp_ro2 p)) = true ->
  exists tooth mirror rd ra ring, l = rd :: tooth ++ ra :: mirror ++ ring /\ length ring = 3%nat /\
    length mirror = length tooth /\
    firstn (length (surface_members l) - 3) (surface_members l) = surface_members (rd :: tooth ++ ra :: mirror) /\
    Forall2 follows ring [image gt (ends (cp_ro2 p), starts (cp_ro2 p)); image gt (ends (cp_ro p), starts (cp_ro p)); image gt (starts (cp_ro0 p), ends (cp_ro0 p))].
Proof.
  intros E CO C0 C2 AO A0 A2. unfold nurb_profile_closed in E.
  destruct (tooth_mirror (convert_list opt n samp true (cp_tooth p))) as [mirror|] eqn:EM; [|discriminate]. cbn [bind] in E.
  injection E as <-. do 4 eexists. exists [nc_reverse (nc_transform gt (convert_curve opt 4 (3 / 2) (cp_ro2 p))); nc_reverse (nc_transform gt (convert_curve opt 4 (3 / 2) (cp_ro p))); nc_transform gt (convert_curve opt 4 (3 / 2) (cp_ro0 p))].
  split; [reflexivity|]. split; [reflexivity|].
  destruct (C57_convert_ends opt 4 (3 / 2) _ ltac:(lia) ltac:(lra) CO) as (SO & BO & _).
  destruct (C57_convert_ends opt 4 (3 / 2) _ ltac:(lia) ltac:(lra) C0) as (S0 & B0 & _).
  destruct (C57_convert_ends opt 4 (3 / 2) _ ltac:(lia) ltac:(lra) C2) as (S2 & B2 & _).
  split.
  { rewrite !map_length. unfold tooth_mirror in EM. destruct (convert_list opt n samp true (cp_tooth p)) as [|c t]; [discriminate|].
    unfold nb_set_points in EM. rewrite map_length, Nat.eqb_refl in EM. cbn [bind] in EM.
    apply (f_equal (fun r => match r with Ok m => length m | Err _ => 0%nat end)) in EM. cbv beta iota in EM. rewrite <- EM.
    rewrite rev_length, map_length, combine_length. set (L := map nc_pair (c :: t)).
    assert (G : forall q k m, length (set_points_from q k m) = length m).
    { intros q k m. revert k. induction m as [|[ps ws] m IH]; intros k; [reflexivity|]. cbn. rewrite IH. reflexivity. }
    rewrite G. unfold L. rewrite map_length. lia. }
  split.
  - match goal with |- context [surface_members (?a :: ?b ++ ?c :: ?d ++ ?r)] =>
      change (a :: b ++ c :: d ++ r) with ([a] ++ b ++ [c] ++ d ++ r) end.
    match goal with |- _ = surface_members (?a :: ?b ++ ?c :: ?d) => change (a :: b ++ c :: d) with ([a] ++ b ++ [c] ++ d) end.
    unfold surface_members. rewrite !filter_app, !map_app.
    match goal with |- context [map nc_pair (filter nc_active [nc_reverse ?a; nc_reverse ?b; ?c])] =>
      assert (FR : filter nc_active [nc_reverse a; nc_reverse b; c] = [nc_reverse a; nc_reverse b; c]) end.
    { apply filter_all. repeat constructor; cbn [nc_reverse nc_transform nc_active]; congruence. }
    rewrite FR. set (ring := map nc_pair [_; _; _]). rewrite !app_assoc. rewrite app_length. cbn [ring map length].
    match goal with |- firstn (length ?x + 3 - 3) _ = _ => replace (length x + 3 - 3)%nat with (length x) by lia end.
    rewrite firstn_app, Nat.sub_diag, firstn_all. cbn [firstn]. apply app_nil_r.
  - constructor; [|constructor; [|constructor; [|constructor]]]; unfold follows, image; cbn [fst snd].
    + apply spans_reverse, (spans_transform gt), S2.
    + apply spans_reverse, (spans_transform gt), SO.
    + apply (spans_transform gt), S0.
Qed.

(** The count of the faces kept is right exactly if all three ring curves are active. *)
Definition ring_active (p : cv_profile) : bool := c_act (cv_curve (cp_ro2 p)) && c_act (cv_curve (cp_ro p)) && c_act (cv_curve (cp_ro0 p)).
Definition tooth_legs (p : cv_profile) : nat :=
  length (filter (fun i => c_act (cv_curve i)) (cp_rd p :: cp_tooth p ++ cp_ra p :: cp_tooth p)).
Theorem C59_kept_iff opt n samp gt p l : (2 <= n)%nat -> 0 <= samp -> all_convertible p ->
  existsb (fun i => c_act (cv_curve i)) (cp_tooth p) = true -> connected (route p) -> nurb_profile_closed opt n samp gt p = Ok l ->
  (length (surface_members l) - 3)%nat = tooth_legs p <-> ring_active p = true.
Proof.
  intros Hn Hs CV EX CN EL. destruct (C57_profile_joined opt n samp gt p Hn Hs CV EX CN) as (l' & EL' & _ & _ & F).
  rewrite EL in EL'. injection EL' as <-. apply Forall2_len in F. unfold surface_members. rewrite map_length, F, map_length.
  assert (G : forall (f : cv_input -> bool * (vec * vec)) k, (forall i, fst (f i) = c_act (cv_curve i)) ->
    length (filter fst (map f k)) = length (filter (fun i => c_act (cv_curve i)) k)).
  { intros f k H. induction k as [|i k IH]; [reflexivity|]. cbn [map filter]. rewrite H. destruct (c_act (cv_curve i)); cbn [length]; rewrite IH; reflexivity. }
  unfold route, tooth_legs. rewrite map_length.
  match goal with |- context [filter fst (?a :: ?b ++ ?c :: ?d ++ [?e; ?f; ?g])] =>
    change (a :: b ++ c :: d ++ [e; f; g]) with ([a] ++ b ++ [c] ++ d ++ [e; f; g]) end.
  match goal with |- context [filter ?q (?a :: ?b ++ ?c :: ?d)] => change (a :: b ++ c :: d) with ([a] ++ b ++ [c] ++ d) end.
  rewrite !filter_app, filter_rev', !app_length, rev_length.
  rewrite (G leg), (G (fun i => back (c_act (cv_curve i), image across (starts i, ends i)))) by (intros; reflexivity).
  assert (T1 : (1 <= length (filter (fun i => c_act (cv_curve i)) (cp_tooth p)))%nat).
  { clear - EX. induction (cp_tooth p) as [|i k IH]; [discriminate|]. cbn in *. destruct (c_act (cv_curve i)); cbn; [lia|]. apply IH, EX. }
  unfold ring_active, leg, back. cbn [filter fst].
  destruct (c_act (cv_curve (cp_ro2 p))), (c_act (cv_curve (cp_ro p))), (c_act (cv_curve (cp_ro0 p))); cbn [andb length];
    destruct (c_act (cv_curve (cp_rd p))), (c_act (cv_curve (cp_ra p))); cbn [length]; split; intros; try reflexivity; try discriminate; lia.
Qed.
Example C59_example : ring_active ex_profile = true /\ tooth_legs ex_profile = 6%nat.
Proof. split; reflexivity. Qed.

(** ** C85: lines and short arcs are converted exactly *)
Lemma two_atan z : (1 + z * z) * cos (2 * atan z) = 1 - z * z /\ (1 + z * z) * sin (2 * atan z) = 2 * z.
Proof.
  pose proof (atan_bound z). assert (C : 0 < cos (atan z)) by (apply cos_gt_0; lra).
  assert (T : sin (atan z) = z * cos (atan z)).
  { pose proof (tan_atan z) as E. unfold tan in E. rewrite <- E at 2. field. lra. }
  pose proof (sc1 (atan z)) as S. rewrite T in S. rewrite cos_2a, sin_2a, T.
  assert (K : (1 + z * z) * (cos (atan z) * cos (atan z)) = 1) by lra.
  split.
  - transitivity ((1 - z * z) * ((1 + z * z) * (cos (atan z) * cos (atan z)))); [ring|rewrite K; ring].
  - transitivity (2 * z * ((1 + z * z) * (cos (atan z) * cos (atan z)))); [ring|rewrite K; ring].
Qed.
Lemma half_angle h : - PI / 2 < h < PI / 2 -> let T := tan (h / 2) in
  (1 + T * T) * cos h = 1 - T * T /\ (1 + T * T) * sin h = 2 * T /\ 2 * atan T = h.
Proof.
  intros H T. assert (A : atan T = h / 2) by (apply atan_tan; lra).
  destruct (two_atan T) as [C S]. rewrite A in C, S. replace (2 * (h / 2)) with h in C, S by field. rewrite A. repeat split; [exact C|exact S|field].
Qed.
Lemma arc_pt_turn r ce m v d : arc_pt r ce m (v + d) =
  vadd (smul r (vadd (smul (cos d) (vadd (smul (cos v) (col1 m)) (smul (sin v) (col2 m)))) (smul (sin d) (vadd (smul (- sin v) (col1 m)) (smul (cos v) (col2 m)))))) ce.
Proof. unfold arc_pt. rewrite cos_plus, sin_plus. generalize (cos v), (sin v), (cos d), (sin d), (col1 m), (col2 m). clear. intros. vec_ring. Qed.

(** The rational parametrisation of the arc between the angles v-h and v+h. *)
Lemma nurb_arc_pt r ce m v h t : 0 < r -> rotation m -> - PI / 2 < h < PI / 2 ->
  let (P, W) := calc_nurbezier_arc (arc_pt r ce m (v - h)) (arc_pt r ce m (v + h)) ce in
  nurbezier t P W = arc_pt r ce m (v + 2 * atan ((2 * t - 1) * tan (h / 2))).
Proof.
  intros Hr HM Hh. pose proof PI_RGT_0 as HPI.
  destruct (cols_dot m (proj1 HM)) as (X & Y & XY & _).
  replace (v - h) with (v + - h) by ring. rewrite !arc_pt_turn. rewrite cos_neg, sin_neg.
  set (U := vadd (smul (cos v) (col1 m)) (smul (sin v) (col2 m))). set (U' := vadd (smul (- sin v) (col1 m)) (smul (cos v) (col2 m))).
  assert (UU : dot U U = 1 /\ dot U' U' = 1 /\ dot U U' = 0).
  { pose proof (sc1 v) as S. unfold U, U'. revert X Y XY S. generalize (cos v), (sin v), (col1 m), (col2 m). clear. intros c s x y X Y XY S.
    repeat split.
    - transitivity (c * c * dot x x + 2 * (c * s) * dot x y + s * s * dot y y); [vec_ring|]. rewrite X, Y, XY. lra.
    - transitivity (s * s * dot x x - 2 * (c * s) * dot x y + c * c * dot y y); [vec_ring|]. rewrite X, Y, XY. lra.
    - transitivity (- (c * s) * dot x x + (c * c - s * s) * dot x y + c * s * dot y y); [vec_ring|]. rewrite X, Y, XY. lra. }
  clearbody U U'. clear X Y XY HM. destruct UU as (UU & VV & UV).
  set (k := cos h). set (q := sin h). assert (KP : 0 < k) by (apply cos_gt_0; unfold k; lra). pose proof (sc1 h) as SC. fold k q in SC.
  unfold calc_nurbezier_arc. rewrite !vsub_vadd.
  set (A := smul r (vadd (smul k U) (smul (- q) U'))). set (B := smul r (vadd (smul k U) (smul q U'))).
  assert (NA : norm A = r).
  { apply norm_eq; [lra|]. unfold A. clear - UU VV UV SC.
    transitivity (r * r * (k * k * dot U U - 2 * (k * q) * dot U U' + q * q * dot U' U')); [vec_ring|]. rewrite UU, VV, UV.
    transitivity (r * r * (q * q + k * k)); [ring|rewrite SC; ring]. }
  assert (NB : norm B = r).
  { apply norm_eq; [lra|]. unfold B. clear - UU VV UV SC.
    transitivity (r * r * (k * k * dot U U + 2 * (k * q) * dot U U' + q * q * dot U' U')); [vec_ring|]. rewrite UU, VV, UV.
    transitivity (r * r * (q * q + k * k)); [ring|rewrite SC; ring]. }
  assert (AB : dot A B = r * r * cos (2 * h)).
  { rewrite cos_2a. fold k q. unfold A, B. clear - UU VV UV.
    transitivity (r * r * (k * k * dot U U - q * q * dot U' U')); [vec_ring|]. rewrite UU, VV. ring. }
  assert (AN : angle_between A B = 2 * Rabs h).
  { destruct (C14_angle_cos_sin A B) as [CA _]. rewrite NA, NB, AB in CA. pose proof (C14_angle_range A B) as RG.
    apply cos_inj; [exact RG|split; [pose proof (Rabs_pos h); lra|unfold Rabs; destruct (Rcase_abs h); lra]|].
    assert (CC : cos (2 * Rabs h) = cos (2 * h)).
    { unfold Rabs; destruct (Rcase_abs h); [|reflexivity]. replace (2 * - h) with (- (2 * h)) by ring. apply cos_neg. }
    rewrite CC. apply Rmult_eq_reg_l with (r * r); [|nra]. lra. }
  rewrite AN, NA, NB. replace (2 * Rabs h / 2) with (Rabs h) by field.
  assert (CH : cos (Rabs h) = k) by (unfold k, Rabs; destruct (Rcase_abs h); [apply cos_neg|reflexivity]).
  assert (SH : sin (Rabs h) * sin (Rabs h) = q * q) by (unfold q, Rabs; destruct (Rcase_abs h); [rewrite sin_neg; ring|reflexivity]).
  assert (PM : vsub (smul (/ 2) (vadd (vadd A ce) (vadd B ce))) ce = smul (r * k) U).
  { unfold A, B. clear. destruct U, U', ce. apply vec_eq; vec_simpl; field. }
  rewrite PM. unfold normalize.
  assert (NM : norm (smul (r * k) U) = r * k).
  { apply norm_eq; [nra|]. clear - UU. transitivity (r * k * (r * k) * dot U U); [vec_ring|]. rewrite UU. ring. }
  rewrite NM, SH, CH.
  assert (P1 : smul ((r + r) / 2) (smul (q * q / k + k) (smul (/ (r * k)) (smul (r * k) U))) = smul (r / k) U).
  { rewrite !smul_smul. f_equal. transitivity (r * (q * q + k * k) / k); [field; lra|]. rewrite SC. field. lra. }
  rewrite P1.
  destruct (half_angle h Hh) as (C1 & S1 & _). fold k q in C1, S1. set (T := tan (h / 2)) in *. set (z := 2 * t - 1).
  destruct (two_atan (z * T)) as [C2 S2].
  assert (TP : 0 < 1 + T * T) by nra. assert (ZP : 0 < 1 + z * T * (z * T)) by nra.
  assert (K1 : k = (1 - T * T) / (1 + T * T)) by (apply Rmult_eq_reg_l with (1 + T * T); [rewrite C1; field; lra|lra]).
  assert (Q1 : q = 2 * T / (1 + T * T)) by (apply Rmult_eq_reg_l with (1 + T * T); [rewrite S1; field; lra|lra]).
  assert (K2 : cos (2 * atan (z * T)) = (1 - z * T * (z * T)) / (1 + z * T * (z * T))) by (apply Rmult_eq_reg_l with (1 + z * T * (z * T)); [rewrite C2; field; lra|lra]).
  assert (Q2 : sin (2 * atan (z * T)) = 2 * (z * T) / (1 + z * T * (z * T))) by (apply Rmult_eq_reg_l with (1 + z * T * (z * T)); [rewrite S2; field; lra|lra]).
  rewrite K2, Q2.
  assert (DE : bezierdc t [1; k; 1] = (1 + z * T * (z * T)) / (1 + T * T)).
  { transitivity ((1 - t) * (1 - t) + 2 * t * (1 - t) * k + t * t); [unfold bezierdc; cbn; unfold lerp2; cbn; ring|].
    rewrite K1. unfold z. field. lra. }
  assert (NU : bezierdc t (wpoints [vadd A ce; vadd (smul (r / k) U) ce; vadd B ce] [1; k; 1]) =
    vadd (smul (r * (((1 - t) * (1 - t) + t * t) * k + 2 * t * (1 - t))) U)
      (vadd (smul (r * (z * q)) U') (smul ((1 - t) * (1 - t) + 2 * t * (1 - t) * k + t * t) ce))).
  { unfold A, B, z. clear - KP. unfold bezierdc. cbn [wpoints length Nat.sub iter_step dc_step hd].
    unfold lerp2. cbn [ladd lsc Lin_vec]. destruct U, U', ce. apply vec_eq; vec_simpl; field; lra. }
  unfold nurbezier. rewrite DE, NU. rewrite K1, Q1. unfold z in *. clear - TP ZP. destruct U, U', ce.
  apply vec_eq; vec_simpl; field; split; lra.
Qed.

(** A line is converted to itself, with the same parameter. *)
Theorem C85_line opt n samp c p q s : fresh c -> c_shape c = SLine p q ->
  let r := convert_curve opt n samp (CPlain c) in
  nurbezier s (nc_points r) (nc_weights r) = c_eval c s.
Proof.
  intros F E. cbn [convert_curve]. rewrite E. cbn [nc_points nc_weights].
  destruct (fresh_line c p q F E) as (T & S' & _).
  unfold c_eval, c_fun. rewrite !(s2t_two_points c _ S' T), E. unfold shape_fun, nurbezier.
  assert (D : bezierdc s [1; 1] = 1) by (unfold bezierdc; cbn; unfold lerp2; cbn; ring). rewrite D.
  unfold bezierdc. cbn [wpoints length Nat.sub iter_step dc_step hd]. unfold lerp2. cbn [ladd lsc Lin_vec].
  destruct p, q. apply vec_eq; vec_simpl; field.
Qed.
(** An arc whose angle and whose used part are less than half a turn becomes a curve with exactly its points. *)
Theorem C85_arc opt n samp c r a ce m : fresh c -> c_shape c = SArc r a ce m -> 0 < r -> rotation m ->
  Rabs a < PI -> 0 < Rabs (a * (c_t1 c - c_t0 c)) < PI ->
  let k := convert_curve opt n samp (CPlain c) in
  (forall t, 0 <= t <= 1 -> exists s, 0 <= s <= 1 /\ nurbezier t (nc_points k) (nc_weights k) = c_eval c s) /\
  (forall s, 0 <= s <= 1 -> exists t, 0 <= t <= 1 /\ nurbezier t (nc_points k) (nc_weights k) = c_eval c s) /\
  nc_active k = c_act c.
Proof.
  intros F E Hr HM HA HB k. pose proof PI_RGT_0 as HPI.
  set (v := a * (c_t0 c + c_t1 c) / 2). set (h := a * (c_t1 c - c_t0 c) / 2).
  assert (Hh : - PI / 2 < h < PI / 2 /\ h <> 0).
  { revert HB. unfold h, Rabs. destruct (Rcase_abs (a * (c_t1 c - c_t0 c))); intros; split; try split; lra. }
  destruct Hh as [Hh H0].
  assert (EV : forall s, c_eval c s = arc_pt r ce m (v + h * (2 * s - 1))).
  { intros s. rewrite (arc_fresh_eval c r a ce m s F E). f_equal. unfold v, h. field. }
  assert (NV : forall t, nurbezier t (nc_points k) (nc_weights k) = arc_pt r ce m (v + 2 * atan ((2 * t - 1) * tan (h / 2)))).
  { intros t. unfold k. cbn [convert_curve]. rewrite E. destruct (Rlt_dec (Rabs a) PI); [|contradiction].
    pose proof (nurb_arc_pt r ce m v h t Hr HM Hh) as NP. rewrite !EV.
    replace (v + h * (2 * 0 - 1)) with (v - h) by ring. replace (v + h * (2 * 1 - 1)) with (v + h) by ring.
    destruct (calc_nurbezier_arc _ _ _) as [P W]. exact NP. }
  destruct (half_angle h Hh) as (_ & _ & A2). set (T := tan (h / 2)) in *.
  assert (MON : forall x y, x <= y -> atan x <= atan y).
  { intros x y [L| ->]; [left; apply atan_increasing, L|right; reflexivity]. }
  assert (RNG : forall z, -1 <= z <= 1 -> (0 < h -> - h <= 2 * atan (z * T) <= h) /\ (h < 0 -> h <= 2 * atan (z * T) <= - h)).
  { intros z Hz. assert (AM : atan (- T) = - atan T) by apply atan_opp.
    split; intros Sg.
    - assert (0 < T) by (destruct (Rle_lt_dec T 0) as [L|L]; [apply MON in L; rewrite atan_0 in L; lra|exact L]).
      assert (L1 : - T <= z * T) by nra. assert (L2 : z * T <= T) by nra. apply MON in L1, L2. lra.
    - assert (T < 0) by (destruct (Rle_lt_dec 0 T) as [L|L]; [apply MON in L; rewrite atan_0 in L; lra|exact L]).
      assert (L1 : T <= z * T) by nra. assert (L2 : z * T <= - T) by nra. apply MON in L1, L2. lra. }
  split; [|split].
  - intros t Ht. exists ((1 + 2 * atan ((2 * t - 1) * T) / h) / 2). rewrite NV, EV. split; [|f_equal; field; exact H0].
    destruct (RNG (2 * t - 1) ltac:(lra)) as [R1 R2].
    assert (B : -1 <= 2 * atan ((2 * t - 1) * T) / h <= 1).
    { set (w := 2 * atan ((2 * t - 1) * T)) in *. assert (W : w = w / h * h) by (field; exact H0).
      destruct (Rlt_dec 0 h) as [P|P]; [specialize (R1 P)|specialize (R2 ltac:(lra))]; split; nra. }
    lra.
  - intros s Hs. set (z := tan (h * (2 * s - 1) / 2) / T).
    assert (T0 : T <> 0) by (intros Z; rewrite Z, atan_0 in A2; lra).
    assert (B1 : - (Rabs h) <= h * (2 * s - 1) <= Rabs h).
    { unfold Rabs. destruct (Rcase_abs h); split; nra. }
    assert (B2 : - PI / 2 < h * (2 * s - 1) / 2 < PI / 2).
    { revert B1. unfold Rabs. destruct (Rcase_abs h); intros; lra. }
    assert (ZT : z * T = tan (h * (2 * s - 1) / 2)) by (unfold z; field; exact T0).
    assert (AT : 2 * atan (z * T) = h * (2 * s - 1)) by (rewrite ZT, atan_tan by (clear - B2; lra); field).
    assert (Z1 : -1 <= z <= 1).
    { destruct (Rlt_dec 1 z) as [L|L]; [|destruct (Rlt_dec z (-1)) as [L'|L']; [|lra]]; exfalso.
      - destruct (Rlt_dec 0 h) as [P|P].
        + assert (0 < T) by (destruct (Rle_lt_dec T 0) as [Q|Q]; [apply MON in Q; rewrite atan_0 in Q; lra|exact Q]).
          assert (Q : T < z * T) by nra. apply atan_increasing in Q. nra.
        + assert (T < 0) by (destruct (Rle_lt_dec 0 T) as [Q|Q]; [apply MON in Q; rewrite atan_0 in Q; lra|exact Q]).
          assert (Q : z * T < T) by nra. apply atan_increasing in Q. nra.
      - assert (AM : atan (- T) = - atan T) by apply atan_opp. destruct (Rlt_dec 0 h) as [P|P].
        + assert (0 < T) by (destruct (Rle_lt_dec T 0) as [Q|Q]; [apply MON in Q; rewrite atan_0 in Q; lra|exact Q]).
          assert (Q : z * T < - T) by nra. apply atan_increasing in Q. nra.
        + assert (T < 0) by (destruct (Rle_lt_dec 0 T) as [Q|Q]; [apply MON in Q; rewrite atan_0 in Q; lra|exact Q]).
          assert (Q : - T < z * T) by nra. apply atan_increasing in Q. nra. }
    exists ((1 + z) / 2). split; [lra|]. rewrite NV, EV. f_equal. f_equal.
    replace (2 * ((1 + z) / 2) - 1) with z by field. exact AT.
  - unfold k. cbn [convert_curve]. rewrite E. destruct (Rlt_dec (Rabs a) PI); [|contradiction].
    destruct (calc_nurbezier_arc _ _ _). reflexivity.
Qed.

(** The test looks at the angle of the arc, not at the part in use: an arc prolonged beyond half a turn is converted to the other,
    shorter arc between its ends. *)
Theorem C85_prolonged_refuted : exists opt n samp c r a ce m, fresh c /\ c_shape c = SArc r a ce m /\ 0 < r /\ rotation m /\ Rabs a < PI /\
  let k := convert_curve opt n samp (CPlain c) in
  forall s, 0 <= s <= 1 -> nurbezier (1 / 2) (nc_points k) (nc_weights k) <> c_eval c s.
Proof.
  pose proof PI_RGT_0 as HPI. set (a := 3 * PI / 4). set (m := UNIT3X3).
  assert (HM : rotation m) by apply rotation_I.
  set (c := new_curve (SArc 1 a ORIGIN m) true 0 2 21). assert (F : fresh c) by apply new_fresh.
  assert (RA : Rabs a < PI) by (unfold a; rewrite Rabs_right; lra).
  exists (fun _ _ _ => 0), 4%nat, 1, c, 1, a, ORIGIN, m. split; [exact F|]. split; [reflexivity|]. split; [lra|]. split; [exact HM|]. split; [exact RA|].
  intros k s Hs.
  assert (EV : forall s, c_eval c s = arc_pt 1 ORIGIN m (3 * PI / 2 * s)).
  { intros u. rewrite (arc_fresh_eval c 1 a ORIGIN m u F eq_refl). f_equal. unfold a, c. cbn [new_curve c_t0 c_t1 update_lengths c_shape]. field. }
  set (h := - (PI / 4)). set (v := 7 * PI / 4).
  assert (PER : arc_pt 1 ORIGIN m 0 = arc_pt 1 ORIGIN m (v - h)).
  { unfold arc_pt. replace (v - h) with (2 * PI) by (unfold v, h; field). rewrite cos_2PI, sin_2PI, cos_0, sin_0. reflexivity. }
  assert (NV : nurbezier (1 / 2) (nc_points k) (nc_weights k) = arc_pt 1 ORIGIN m v).
  { unfold k. cbn [convert_curve]. change (c_shape c) with (SArc 1 a ORIGIN m). cbv iota beta. destruct (Rlt_dec (Rabs a) PI); [|contradiction].
    rewrite !EV. replace (3 * PI / 2 * 0) with 0 by ring. rewrite PER. replace (3 * PI / 2 * 1) with (v + h) by (unfold v, h; field).
    pose proof (nurb_arc_pt 1 ORIGIN m v h (1 / 2) ltac:(lra) HM ltac:(unfold h; lra)) as NP.
    destruct (calc_nurbezier_arc _ _ _) as [P W]. cbn [nc_points nc_weights]. rewrite NP. f_equal.
    replace ((2 * (1 / 2) - 1) * tan (h / 2)) with 0 by field. rewrite atan_0. ring. }
  rewrite NV, EV. intros Q. set (th := 3 * PI / 2 * s) in *.
  assert (TH : 0 <= th <= 3 * (PI / 2)) by (unfold th; split; nra).
  assert (QX : cos v = cos th) by (apply (f_equal vx) in Q; unfold arc_pt, m, col1, col2, ORIGIN in Q; cbn in Q; lra).
  assert (QY : sin v = sin th) by (apply (f_equal vy) in Q; unfold arc_pt, m, col1, col2, ORIGIN in Q; cbn in Q; lra).
  assert (CV : cos v = cos (PI / 4)) by (unfold v; rewrite <- (cos_neg (PI / 4)), <- (cos_period (- (PI / 4)) 1); f_equal; cbn; field).
  assert (SV : sin v = - sin (PI / 4)) by (unfold v; rewrite <- sin_neg, <- (sin_period (- (PI / 4)) 1); f_equal; cbn; field).
  assert (0 < cos (PI / 4)) by (apply cos_gt_0; lra). assert (0 < sin (PI / 4)) by (apply sin_gt_0; lra).
  destruct (Rle_lt_dec (PI / 2) th) as [L|L].
  - pose proof (cos_le_0 th L ltac:(lra)). lra.
  - pose proof (sin_ge_0 th ltac:(lra) ltac:(lra)). lra.
Qed.
(** A quarter arc from the x axis meets the hypotheses. *)
Example C85_example : let c := new_curve (SArc 2 (PI / 2) RIGHT UNIT3X3) true 0 1 21 in
  fresh c /\ rotation UNIT3X3 /\ Rabs (PI / 2) < PI /\ 0 < Rabs (PI / 2 * (c_t1 c - c_t0 c)) < PI.
Proof.
  pose proof PI_RGT_0. split; [apply new_fresh|]. split; [apply rotation_I|].
  cbn [new_curve c_t0 c_t1 update_lengths c_shape]. replace (PI / 2 * (1 - 0)) with (PI / 2) by ring. rewrite Rabs_right by lra. lra.
Qed.
