(** C60, C61, C63, C82, C83: assembling and placing solids, the z values of a bevel gear, edges. *)
From Coq Require Import Reals ZArith Lra Lia Psatz List Bool.
From Verif Require Import Num Vec Transform TransformProps Coords CoordsProps Bezier Interp Curve CurveLem
  CurveProps ArcLem ArcProps Build.
Import ListNotations.
Open Scope R_scope.

(** ** C60 *)

(** Number written by the digits, lowest first. *)
Fixpoint digits_value (ds : list bool) : nat :=
  match ds with [] => 0 | d :: r => (if d then 1 else 0) + 2 * digits_value r end.
Lemma pos_digits_value p : digits_value (pos_digits p) = Pos.to_nat p.
Proof. induction p; cbn [pos_digits digits_value]; lia. Qed.
Lemma bin_chars_value n : digits_value (bin_chars n) = Z.abs_nat n.
Proof.
  destruct n as [|p|p]; cbn [bin_chars]; [reflexivity|rewrite pos_digits_value; lia|].
  assert (G : forall ds, digits_value (ds ++ [false]) = digits_value ds).
  { induction ds as [|d ds IH]; [reflexivity|]. cbn [app digits_value]. rewrite IH. reflexivity. }
  rewrite G, pos_digits_value. lia.
Qed.

(** A solid as the list of turns (in degrees) at which copies of the one-tooth solid are placed. *)
Definition turn_all (a : R) (l : list R) : list R := map (fun x => a + x) l.
Definition teeth (pitch : R) (n : nat) : list R := map (fun j => INR j * (pitch * RAD2DEG)) (seq 0 n).

Lemma seq_shift_add a n b : map (fun j => (b + j)%nat) (seq a n) = seq (b + a) n.
Proof. revert a; induction n as [|n IH]; intros a; [reflexivity|]. cbn [seq map]. rewrite IH. do 2 f_equal. lia. Qed.
Lemma turn_teeth pitch m n : turn_all (INR m * (pitch * RAD2DEG)) (teeth pitch n) =
  map (fun j => INR j * (pitch * RAD2DEG)) (seq m n).
Proof.
  unfold turn_all, teeth. rewrite map_map. replace (seq m n) with (seq (m + 0) n) by (f_equal; lia).
  rewrite <- seq_shift_add, map_map.
  apply map_ext. intros j. rewrite plus_INR. ring.
Qed.
Lemma teeth_app pitch m n : teeth pitch m ++ turn_all (INR m * (pitch * RAD2DEG)) (teeth pitch n) = teeth pitch (m + n).
Proof. rewrite turn_teeth. unfold teeth. rewrite seq_app, map_app. reflexivity. Qed.
Lemma INR_pow2 k : INR (2 ^ k) = 2 ^ k.
Proof. rewrite pow_INR. f_equal. Qed.

Lemma doubling_teeth pitch ds : forall k prev idx acc,
  prev = teeth pitch (2 ^ (k - 1)) -> concat acc = teeth pitch idx ->
  exists acc', doubling _ turn_all (@app R) pitch ds k prev idx acc = acc ++ acc' /\
    concat (acc ++ acc') = teeth pitch (idx + 2 ^ k * digits_value ds) /\
    (digits_value ds <> 0%nat -> acc' <> []).
Proof.
  induction ds as [|d r IH]; intros k prev idx acc HP HA; cbn [doubling digits_value].
  - exists []. rewrite app_nil_r. split; [reflexivity|]. split; [|congruence].
    rewrite HA. f_equal. lia.
  - set (shape := match k with O => prev | S k' => prev ++ turn_all (pitch * RAD2DEG * 2 ^ k') prev end).
    assert (SH : shape = teeth pitch (2 ^ k)).
    { unfold shape. destruct k as [|k]; [exact HP|]. cbn [Nat.sub] in HP. rewrite Nat.sub_0_r in HP. subst prev.
      replace (pitch * RAD2DEG * 2 ^ k) with (INR (2 ^ k) * (pitch * RAD2DEG)) by (rewrite INR_pow2; ring).
      rewrite teeth_app. f_equal. cbn. lia. }
    assert (SK : shape = teeth pitch (2 ^ (S k - 1))) by (rewrite SH; do 2 f_equal; lia).
    clearbody shape. destruct d.
    + destruct (IH (S k) shape (idx + 2 ^ k)%nat (acc ++ [turn_all (INR idx * pitch * RAD2DEG) shape]) SK) as (a' & E1 & E2 & E3).
      { rewrite concat_app, HA. cbn [concat]. rewrite app_nil_r, SH.
        replace (INR idx * pitch * RAD2DEG) with (INR idx * (pitch * RAD2DEG)) by ring. apply teeth_app. }
      exists (turn_all (INR idx * pitch * RAD2DEG) shape :: a'). rewrite E1.
      rewrite <- !app_assoc in *. cbn [app] in *. split; [reflexivity|]. split; [|discriminate].
      rewrite E2. f_equal. cbn [Nat.pow]. lia.
    + destruct (IH (S k) shape idx acc SK HA) as (a' & E1 & E2 & E3). exists a'. split; [exact E1|].
      split; [rewrite E2; f_equal; cbn [Nat.pow]; lia|]. intros H. apply E3. lia.
Qed.

(** For every number of teeth the copies are placed at the multiples 0 .. n-1 of the pitch angle, each
    once (and in this order). *)
Lemma fold_app (r : list (list R)) s : fold_left (@app R) r s = concat (s :: r).
Proof.
  revert s; induction r as [|x r IH]; intros s; cbn [fold_left concat]; [symmetry; apply app_nil_r|].
  rewrite IH. cbn [concat]. rewrite app_assoc. reflexivity.
Qed.
Theorem C60_each_tooth_once n pitch : n <> 0%Z ->
  old_solid _ turn_all (@app R) n pitch [0] = Ok (map (fun j => INR j * (pitch * RAD2DEG)) (seq 0 (Z.abs_nat n))).
Proof.
  intros N. unfold old_solid.
  destruct (doubling_teeth pitch (bin_chars n) 0 [0] 0 []) as (acc & E1 & E2 & E3).
  - unfold teeth. cbn. f_equal. ring.
  - reflexivity.
  - cbn [app] in E1, E2. rewrite E1. rewrite bin_chars_value in E2, E3.
    destruct acc as [|s r]; [exfalso; apply E3; [lia|reflexivity]|].
    f_equal. rewrite fold_app, E2. unfold teeth. do 2 f_equal. cbn [Nat.pow]. lia.
Qed.
(** No tooth at all is an IndexError. *)
Theorem C60_no_teeth {S0} rot fuse pitch (s : S0) : old_solid S0 rot fuse 0 pitch s = Err IndexError.
Proof. reflexivity. Qed.

(** The loop commutes with every reading of solids that respects turning and fusing. *)
Lemma doubling_sim {A B} (ra : R -> A -> A) (fa : A -> A -> A) (rb : R -> B -> B) (fb : B -> B -> B) (Q : A -> B -> Prop) :
  (forall t a b, Q a b -> Q (ra t a) (rb t b)) -> (forall a b a' b', Q a b -> Q a' b' -> Q (fa a a') (fb b b')) ->
  forall pitch ds k pa pb idx la lb, Q pa pb -> Forall2 Q la lb ->
  Forall2 Q (doubling A ra fa pitch ds k pa idx la) (doubling B rb fb pitch ds k pb idx lb).
Proof.
  intros HR HF pitch. induction ds as [|d r IH]; intros k pa pb idx la lb HP HL; cbn [doubling]; [exact HL|].
  assert (HS : Q (match k with O => pa | S k' => fa pa (ra (pitch * RAD2DEG * 2 ^ k') pa) end)
                 (match k with O => pb | S k' => fb pb (rb (pitch * RAD2DEG * 2 ^ k') pb) end))
    by (destruct k; auto).
  destruct d; apply IH; auto. apply Forall2_app; auto.
Qed.
Lemma old_solid_sim {A B} (ra : R -> A -> A) (fa : A -> A -> A) (rb : R -> B -> B) (fb : B -> B -> B) (Q : A -> B -> Prop) :
  (forall t a b, Q a b -> Q (ra t a) (rb t b)) -> (forall a b a' b', Q a b -> Q a' b' -> Q (fa a a') (fb b b')) ->
  forall n pitch a b, Q a b ->
  match old_solid A ra fa n pitch a, old_solid B rb fb n pitch b with
  | Ok x, Ok y => Q x y | Err e, Err e' => e = e' | _, _ => False
  end.
Proof.
  intros HR HF n pitch a b H. unfold old_solid.
  pose proof (doubling_sim ra fa rb fb Q HR HF pitch (bin_chars n) 0 a b 0 [] [] H (Forall2_nil _)) as G.
  inversion G as [|x y l l' XY LL]; [reflexivity|]. clear - XY LL HF. revert x y XY.
  induction LL as [|u v l l' UV LL IH]; intros x y XY; cbn [fold_left]; [exact XY|]. apply IH. auto.
Qed.

(** The fused solid occupies exactly the points of the one-tooth solid turned by 0, 1, .., n-1 pitch
    angles. *)
Theorem C60_solid n pitch (X : pset) : n <> 0%Z -> exists Y,
  old_solid _ rotate_deg union n pitch X = Ok Y /\
  forall p, Y p <-> exists j, (j < Z.abs_nat n)%nat /\ exists q, X q /\ p = mapp (rotz (INR j * pitch)) q.
Proof.
  intros N.
  set (Q := fun (Z : pset) (l : list R) => forall p, Z p <-> exists a, In a l /\ X (mapp (rotz (- to_rad a)) p)).
  assert (G := old_solid_sim rotate_deg union turn_all (@app R) Q).
  specialize (G ltac:(
    intros t Z l H p; unfold rotate_deg, turn_all; rewrite (H _); split;
    [intros (a & I & HX); exists (t + a); split; [apply in_map_iff; exists a; auto|];
     rewrite <- mapp_mmul, rotz_plus in HX; replace (- to_rad (t + a)) with (- to_rad a + - to_rad t) by (unfold to_rad; field); exact HX
    |intros (a & I & HX); apply in_map_iff in I; destruct I as (b & <- & I); exists b; split; [exact I|];
     rewrite <- mapp_mmul, rotz_plus; replace (- to_rad b + - to_rad t) with (- to_rad (t + b)) by (unfold to_rad; field); exact HX])).
  specialize (G ltac:(
    intros Z l Z' l' H H' p; unfold union; rewrite (H p), (H' p); split;
    [intros [(a & I & HX)|(a & I & HX)]; exists a; rewrite in_app_iff; auto
    |intros (a & I & HX); rewrite in_app_iff in I; destruct I; [left|right]; exists a; auto])).
  specialize (G n pitch X [0] ltac:(
    intros p; split;
    [intros H; exists 0; split; [left; reflexivity|];
     replace (- to_rad 0) with 0 by (unfold to_rad; field); rewrite rotz_0, mapp_I; exact H
    |intros (a & [<-|[]] & HX); replace (- to_rad 0) with 0 in HX by (unfold to_rad; field);
     rewrite rotz_0, mapp_I in HX; exact HX])).
  rewrite C60_each_tooth_once in G by exact N.
  destruct (old_solid _ rotate_deg union n pitch X) as [Y|e]; [|contradiction].
  exists Y. split; [reflexivity|]. intros p. rewrite (G p). split.
  - intros (a & I & HX). apply in_map_iff in I. destruct I as (j & <- & I). apply in_seq in I.
    exists j. split; [lia|]. exists (mapp (rotz (- to_rad (INR j * (pitch * RAD2DEG)))) p). split; [exact HX|].
    rewrite <- mapp_mmul, rotz_plus.
    replace (INR j * pitch + - to_rad (INR j * (pitch * RAD2DEG))) with 0
      by (unfold to_rad, RAD2DEG; field; apply PI_neq0). rewrite rotz_0, mapp_I. reflexivity.
  - intros (j & J & q & HX & ->). exists (INR j * (pitch * RAD2DEG)). split.
    + apply in_map_iff. exists j. split; [reflexivity|]. apply in_seq. lia.
    + rewrite <- mapp_mmul, rotz_plus.
      replace (- to_rad (INR j * (pitch * RAD2DEG)) + INR j * pitch) with 0
        by (unfold to_rad, RAD2DEG; field; apply PI_neq0). rewrite rotz_0, mapp_I. exact HX.
Qed.
Example C60_solid_example : exists Y, old_solid _ rotate_deg union 17 (2 * PI / 17) (fun p => p = RIGHT) = Ok Y /\
  Y (mapp (rotz (INR 16 * (2 * PI / 17))) RIGHT).
Proof.
  destruct (C60_solid 17 (2 * PI / 17) (fun p => p = RIGHT) ltac:(discriminate)) as (Y & E & H).
  exists Y. split; [exact E|]. apply H. exists 16%nat. split; [cbn; lia|]. exists RIGHT. auto.
Qed.
(** Eleven teeth: three groups (1, 2 and 8 teeth) are fused. *)
Example C60_example : length (doubling _ turn_all (@app R) (2 * PI / 11) (bin_chars 11) 0 [0] 0 []) = 3%nat /\
  old_solid _ turn_all (@app R) 11 (2 * PI / 11) [0] = Ok (map (fun j => INR j * (2 * PI / 11 * RAD2DEG)) (seq 0 11)).
Proof. split; [reflexivity|]. apply C60_each_tooth_once. discriminate. Qed.

(** ** C61 *)
Lemma to_rad_deg x : to_rad (x * RAD2DEG) = x.
Proof. unfold to_rad, RAD2DEG. field. apply PI_neq0. Qed.
Lemma to_rad_deg' x : to_rad (x * 180 / PI) = x.
Proof. unfold to_rad. field. apply PI_neq0. Qed.

(** The CAD placement of a part is the placement of the curves. *)
Theorem C61_placement (T : gtransform) p : rotation (g_orient T) ->
  apply_transform_part T p = apply_gear_transform p T.
Proof.
  intros HR. unfold apply_transform_part, transform2Location.
  pose proof (euler_as_euler _ HR) as E. destruct (as_euler_zyx (g_orient T)) as [[a b] c].
  unfold loc_point, location_extrinsic_zyx. cbn [loc_rot loc_pos].
  replace (to_rad (a * RAD2DEG + g_angle T * 180 / PI)) with (a + g_angle T)
    by (unfold to_rad, RAD2DEG; field; apply PI_neq0).
  rewrite !to_rad_deg. unfold apply_gear_transform. rewrite !vmat_mtrans. f_equal.
  rewrite <- E. unfold euler_zyx. rewrite <- rotz_plus, !mapp_mmul, !mapp_smul. reflexivity.
Qed.
(** A placement by any [Location] is a rotation and a shift, so a mirrored orientation is never met. *)
Theorem C61_mirrored_refuted (T : gtransform) pos a b c : orthogonal (g_orient T) -> det (g_orient T) = -1 ->
  g_scale T <> 0 ->
  ~ forall p, loc_point (location_extrinsic_zyx pos a b c) (smul (g_scale T) p) = apply_gear_transform p T.
Proof.
  intros HO HD HS H. unfold loc_point, location_extrinsic_zyx in H. cbn [loc_rot loc_pos] in H.
  set (E := euler_zyx (to_rad a) (to_rad b) (to_rad c)) in H.
  assert (DE : det E = 1) by apply rotation_euler. clearbody E.
  assert (P0 : pos = g_center T).
  { specialize (H ORIGIN). rewrite apply_gear_transform_eq, smul_ORIGIN, !mapp_ORIGIN, smul_ORIGIN, !vadd_0_l in H. exact H. }
  assert (EQ : E = mmul (g_orient T) (rotz (g_angle T))).
  { apply mat_ext. intros p. specialize (H p). rewrite apply_gear_transform_eq, P0 in H. apply vadd_cancel_r in H.
    rewrite mapp_smul in H. apply (f_equal (smul (/ g_scale T))) in H. rewrite !smul_smul, Rinv_l, !smul_1 in H by exact HS.
    rewrite H, mapp_mmul. reflexivity. }
  rewrite EQ, det_mmul, HD in DE. destruct (rotation_rotz (g_angle T)) as [_ D]. rewrite D in DE. lra.
Qed.
Example C61_example : apply_transform_part (mkG (V 1 2 3) (rotx (PI / 2)) 2 (PI / 2)) RIGHT = V 1 2 5.
Proof.
  rewrite C61_placement by apply rotation_rotx. rewrite apply_gear_transform_eq. vec_simpl.
  cbn [g_center g_orient g_scale g_angle]. rewrite sin_PI2, cos_PI2. apply vec_eq; cbn; ring.
Qed.

(** ** C63 *)
Lemma upd_length {A} (l : list A) k x : length (upd_nth l k x) = length l.
Proof. revert k; induction l as [|y l IH]; intros [|k]; cbn; auto. Qed.
Lemma upd_same {A} (l : list A) k x d : (k < length l)%nat -> nth k (upd_nth l k x) d = x.
Proof. revert k; induction l as [|y l IH]; intros [|k] H; cbn in *; try lia; auto. apply IH. lia. Qed.
Lemma upd_other {A} (l : list A) k j x d : j <> k -> nth j (upd_nth l k x) d = nth j l d.
Proof. revert k j; induction l as [|y l IH]; intros [|k] [|j] H; cbn; auto; try lia. Qed.
Lemma last_is_nth (l : list R) : last l 0 = nth (length l - 1) l 0.
Proof.
  induction l as [|x l IH]; [reflexivity|]. destruct l as [|y l]; [reflexivity|].
  change (last (x :: y :: l) 0) with (last (y :: l) 0). rewrite IH. cbn [length]. replace (S (S (length l)) - 1)%nat
    with (S (S (length l) - 1)) by lia. reflexivity.
Qed.
Lemma hd_is_nth (l : list R) : hd 0 l = nth 0 l 0.
Proof. destruct l; reflexivity. Qed.

(** Ends moved outward by [w], everything between unchanged. *)
Definition widened (w : R) (z z' : list R) : Prop :=
  length z' = length z /\ nth 0 z' 0 = nth 0 z 0 - w /\
  nth (length z - 1) z' 0 = nth (length z - 1) z 0 + w /\
  forall i, (0 < i < length z - 1)%nat -> nth i z' 0 = nth i z 0.
Lemma extend_widened ratio z : (2 <= length z)%nat ->
  widened (ratio * (nth (length z - 1) z 0 - nth 0 z 0)) z (extend_z ratio z).
Proof.
  intros L. unfold extend_z. rewrite last_is_nth, !hd_is_nth. unfold widened. rewrite !upd_length.
  split; [reflexivity|]. split; [|split].
  - rewrite upd_same by (rewrite upd_length; lia). rewrite upd_other by lia. reflexivity.
  - rewrite upd_other by lia. rewrite upd_same by lia. reflexivity.
  - intros i Hi. rewrite upd_other by lia. rewrite upd_other by lia. reflexivity.
Qed.
Lemma widened_refl z : widened 0 z z.
Proof. repeat split; ring. Qed.

Definition live (s : gstate) : Prop := (gs_z s < length (gs_heap s))%nat.

(** A build that succeeds, and one that fails after the surfaces are made, leaves the gear's z values as
    they were; so does every build of a cylindrical gear. *)
Theorem C63_success ca ratio surf cut s s' r : live s -> build ca ratio surf cut s = (s', r) ->
  (exists b, r = Ok b) -> z_of s' = z_of s.
Proof.
  intros L E [b Hr]. unfold build in E. destruct (Req_EM_T ca 0); [injection E as <- <-; reflexivity|].
  destruct (z_of s) as [|z0 zr] eqn:EZ; [injection E as <- <-; discriminate|].
  set (z := z0 :: zr) in *. set (s1 := mkGS _ _) in E. destruct (surf (z_of s1)).
  - injection E as <- <-. discriminate.
  - injection E as <- _. unfold z_of, s1. cbn [gs_z gs_heap].
    rewrite upd_other by (unfold live in L; lia). rewrite app_nth2 by lia. rewrite Nat.sub_diag. reflexivity.
Qed.
Theorem C63_late_failure ca ratio surf cut s s' r : live s -> build ca ratio surf cut s = (s', r) ->
  surf (extend_z ratio (z_of s)) = None -> z_of s' = z_of s.
Proof.
  intros L E HS. unfold build in E. destruct (Req_EM_T ca 0); [injection E as <- <-; reflexivity|].
  destruct (z_of s) as [|z0 zr] eqn:EZ; [injection E as <- <-; exact EZ|].
  set (z := z0 :: zr) in *. set (s1 := mkGS _ _) in E.
  assert (Z1 : z_of s1 = extend_z ratio z).
  { unfold z_of, s1. cbn [gs_z gs_heap]. apply upd_same. rewrite app_length. unfold live in L. lia. }
  rewrite Z1, HS in E. injection E as <- _. unfold z_of, s1. cbn [gs_z gs_heap].
  rewrite upd_other by (unfold live in L; lia). rewrite app_nth2 by lia. rewrite Nat.sub_diag. reflexivity.
Qed.
Theorem C63_cylindrical ratio surf cut s : fst (build 0 ratio surf cut s) = s.
Proof. unfold build. destruct (Req_EM_T 0 0); [reflexivity|lra]. Qed.

(** The surfaces of a bevel gear are made for the widened range. *)
Theorem C63_surfaces_range ca ratio surf cut s s' b : ca <> 0 -> live s -> (2 <= length (z_of s))%nat ->
  build ca ratio surf cut s = (s', Ok b) ->
  surf (nth (bl_z b) (gs_heap s') []) = None /\
  widened (ratio * (nth (length (z_of s) - 1) (z_of s) 0 - nth 0 (z_of s) 0)) (z_of s) (nth (bl_z b) (gs_heap s') []).
Proof.
  intros CA L L2 E. unfold build in E. destruct (Req_EM_T ca 0); [contradiction|].
  assert (EW := extend_widened ratio (z_of s) L2).
  destruct (z_of s) as [|z0 zr] eqn:EZ; [cbn in L2; lia|].
  set (z := z0 :: zr) in *. set (s1 := mkGS _ _) in E.
  assert (Z1 : z_of s1 = extend_z ratio z).
  { unfold z_of, s1. cbn [gs_z gs_heap]. apply upd_same. rewrite app_length. unfold live in L. lia. }
  destruct (surf (z_of s1)) eqn:ES; [discriminate|]. injection E as <- ER.
  destruct (cut _); [discriminate|]. injection ER as <-. cbn [bl_z gs_heap].
  change (surf (z_of s1) = None /\ widened (ratio * (nth (length z - 1) z 0 - nth 0 z 0)) z (z_of s1)).
  split; [exact ES|]. rewrite Z1. exact EW.
Qed.

(** A build that fails while the surfaces are made keeps the widened range ... *)
Theorem C63_crash ca ratio surf cut s e : ca <> 0 -> live s -> (2 <= length (z_of s))%nat ->
  surf (extend_z ratio (z_of s)) = Some e ->
  exists s', build ca ratio surf cut s = (s', Err e) /\ live s' /\
    widened (ratio * (nth (length (z_of s) - 1) (z_of s) 0 - nth 0 (z_of s) 0)) (z_of s) (z_of s').
Proof.
  intros CA L L2 HS. unfold build. destruct (Req_EM_T ca 0); [contradiction|].
  assert (EW := extend_widened ratio (z_of s) L2).
  destruct (z_of s) as [|z0 zr] eqn:EZ; [cbn in L2; lia|].
  set (z := z0 :: zr) in *. set (s1 := mkGS _ _).
  assert (Z1 : z_of s1 = extend_z ratio z).
  { unfold z_of, s1. cbn [gs_z gs_heap]. apply upd_same. rewrite app_length. unfold live in L. lia. }
  rewrite Z1, HS. exists s1. split; [reflexivity|]. rewrite Z1. split; [|exact EW].
  unfold live, s1. cbn [gs_z gs_heap]. rewrite upd_length, app_length. unfold live in L. lia.
Qed.
(** ... and every further attempt widens it again: after [k] failures the range is [(1 + 2 ratio)^k]
    times as long, about the same middle. *)
Theorem C63_retries k ca ratio e s : ca <> 0 -> live s -> (2 <= length (z_of s))%nat ->
  let d := nth (length (z_of s) - 1) (z_of s) 0 - nth 0 (z_of s) 0 in
  live (crash k ca ratio e s) /\
  widened (d * ((1 + 2 * ratio) ^ k - 1) / 2) (z_of s) (z_of (crash k ca ratio e s)).
Proof.
  intros CA L L2 d. induction k as [|k IH].
  - cbn [crash pow]. split; [exact L|]. replace (d * (1 - 1) / 2) with 0 by field. apply widened_refl.
  - destruct IH as (L' & W1 & W2 & W3 & W4). cbn [crash]. set (s1 := crash k ca ratio e s) in *.
    destruct (C63_crash ca ratio (fun _ => Some e) (fun _ => None) s1 e CA L' ltac:(rewrite W1; exact L2) eq_refl)
      as (s2 & E & L'' & V1 & V2 & V3 & V4).
    rewrite E. cbn [fst]. split; [exact L''|]. rewrite W1 in V1, V2, V3, V4. rewrite W2, W3 in V2, V3.
    unfold widened. split; [exact V1|]. split; [|split].
    + rewrite V2. cbn [pow]. unfold d. field.
    + rewrite V3. cbn [pow]. unfold d. field.
    + intros i Hi. rewrite V4 by exact Hi. apply W4, Hi.
Qed.
(** A later success restores the range of its own start, not the original one. *)
Theorem C63_success_after_crash_refuted : exists s s' b,
  live s /\ z_of s = [0; 1] /\
  build (PI / 4) (1 / 100) (fun _ => None) (fun _ => None) (crash 1 (PI / 4) (1 / 100) ValueError s) = (s', Ok b) /\
  z_of s' <> z_of s.
Proof.
  pose proof PI_RGT_0. exists (mkGS [[0; 1]] 0). eexists _, _. split; [unfold live; cbn; lia|]. split; [reflexivity|].
  split.
  - cbn [crash]. unfold build. destruct (Req_EM_T (PI / 4) 0) as [Z|_]; [exfalso; lra|]. cbn. reflexivity.
  - cbn. intros E. injection E. intros. lra.
Qed.
Example C63_example : z_of (crash 2 1 (1 / 2) ValueError (mkGS [[0; 1; 2]] 0)) = [-3; 1; 5].
Proof.
  cbn [crash]. unfold build. destruct (Req_EM_T 1 0); [lra|]. cbn. repeat f_equal; lra.
Qed.
Example C63_retries_example :
  widened ((2 - 0) * ((1 + 2 * (1 / 2)) ^ 3 - 1) / 2) [0; 1; 2] (z_of (crash 3 1 (1 / 2) ValueError (mkGS [[0; 1; 2]] 0))).
Proof. apply (C63_retries 3 1 (1 / 2) ValueError (mkGS [[0; 1; 2]] 0)); [lra|unfold live; cbn; lia|cbn; lia]. Qed.
Example C63_crash_example : exists s',
  build 1 (1 / 2) (fun _ => Some ValueError) (fun _ => None) (mkGS [[0; 1; 2]] 0) = (s', Err ValueError) /\ live s' /\
  widened (1 / 2 * (2 - 0)) [0; 1; 2] (z_of s').
Proof. apply (C63_crash 1 (1 / 2) _ _ (mkGS [[0; 1; 2]] 0)); [lra|unfold live; cbn; lia|cbn; lia|reflexivity]. Qed.
Example C63_late_failure_example : exists s',
  build 1 (1 / 2) (fun _ => None) (fun _ => Some ValueError) (mkGS [[0; 1; 2]] 0) = (s', Err ValueError) /\ z_of s' = [0; 1; 2].
Proof.
  eexists. split; [unfold build; destruct (Req_EM_T 1 0); [lra|]; cbn; reflexivity|]. reflexivity.
Qed.
Example C63_success_example : exists s' b,
  build 1 (1 / 2) (fun _ => None) (fun _ => None) (mkGS [[0; 1; 2]] 0) = (s', Ok b) /\ z_of s' = [0; 1; 2] /\
  nth (bl_z b) (gs_heap s') [] = [-1; 1; 3].
Proof.
  unfold build. destruct (Req_EM_T 1 0); [lra|]. cbn. eexists _, _. split; [reflexivity|]. cbn. split; [reflexivity|].
  repeat f_equal; lra.
Qed.

(** ** C82 *)
Definition arc_pt (r : R) (ce : vec) (m : mat) (u : R) : vec :=
  vadd (smul r (vadd (smul (cos u) (col1 m)) (smul (sin u) (col2 m)))) ce.
Lemma arc_shape_pt r a ce m t : shape_fun (SArc r a ce m) t = arc_pt r ce m (a * t).
Proof. apply arc_shape_eval. Qed.
Lemma circle_point_pt r ce m th : circle_point r (mkLoc ce m) th = arc_pt r ce m th.
Proof. unfold circle_point, loc_point, arc_pt. cbn [loc_rot loc_pos]. f_equal. vec_ring. Qed.
Lemma sweep_id start stop : 0 < stop - start <= 360 -> sweep start stop = stop - start.
Proof.
  intros H. unfold sweep. destruct (Req_EM_T (stop - start) 360) as [E|E].
  - rewrite E. replace (360 / 360) with 1 by field. rewrite (floorZ_IZR 1).
    destruct (Req_EM_T _ 0) as [|N]; [reflexivity|]. exfalso. apply N. ring.
  - rewrite (floorZ_unique _ 0%Z) by (split; [apply Rmult_le_reg_r with 360|apply Rmult_lt_reg_r with 360]; try lra;
      unfold Rdiv; rewrite Rmult_assoc, Rinv_l by lra; lra).
    destruct (Req_EM_T _ 0); lra.
Qed.
Lemma intrinsic_extrinsic ce a b c : location_intrinsic_xyz ce a b c = mkLoc ce (euler_zyx (to_rad c) (to_rad b) (to_rad a)).
Proof. unfold location_intrinsic_xyz, euler_zyx. rewrite mmul_assoc. reflexivity. Qed.

Lemma arc_edge_points r a ce m p : rotation m -> 0 < Rabs a <= 2 * PI ->
  (arc_edge r a ce m p <-> exists s, 0 <= s <= 1 /\ p = arc_pt r ce m (a * s)).
Proof.
  intros HM HA. pose proof PI_RGT_0 as PP. unfold arc_edge. pose proof (euler_as_euler m HM) as E.
  destruct (as_euler_zyx m) as [[yaw pitch] roll]. rewrite intrinsic_extrinsic, !to_rad_deg', E.
  assert (D : forall x, 0 < x <= 2 * PI -> 0 < x * 180 / PI <= 360).
  { intros x Hx. split.
    - apply Rdiv_lt_0_compat; lra.
    - apply Rmult_le_reg_r with PI; [exact PP|]. unfold Rdiv. rewrite Rmult_assoc, Rinv_l by lra. lra. }
  destruct (Rlt_dec a 0) as [N|N].
  - rewrite Rabs_left in HA by exact N. unfold make_circle.
    rewrite sweep_id by (specialize (D (- a) HA); replace (0 - a * 180 / PI) with (- a * 180 / PI) by (field; lra); exact D).
    split.
    + intros (th & Hth & ->). rewrite circle_point_pt. exists (to_rad th / a). split.
      * assert (K : a <= to_rad th <= 0).
        { unfold to_rad. replace a with (a * 180 / PI * PI / 180) at 1 by (field; lra). split.
          - apply Rmult_le_compat_r; [lra|]. apply Rmult_le_compat_r; lra.
          - replace 0 with (0 * PI / 180) by field. apply Rmult_le_compat_r; [lra|]. apply Rmult_le_compat_r; lra. }
        split.
        -- apply Rmult_le_reg_r with (- a); [lra|]. replace (to_rad th / a * - a) with (- to_rad th) by (field; lra). lra.
        -- apply Rmult_le_reg_r with (- a); [lra|]. replace (to_rad th / a * - a) with (- to_rad th) by (field; lra). lra.
      * f_equal. field. lra.
    + intros (s & Hs & ->). exists (a * s * 180 / PI). split.
      * replace (a * 180 / PI + (0 - a * 180 / PI)) with 0 by ring. unfold Rdiv. split.
        -- apply Rmult_le_compat_r; [left; apply Rinv_0_lt_compat; lra|]. nra.
        -- rewrite <- (Rmult_0_l (/ PI)). apply Rmult_le_compat_r; [left; apply Rinv_0_lt_compat; lra|]. nra.
      * rewrite circle_point_pt, to_rad_deg'. reflexivity.
  - assert (N0 : 0 < a) by (destruct (Rtotal_order a 0) as [|[->|]]; [contradiction|rewrite Rabs_R0 in HA; lra|assumption]).
    rewrite Rabs_right in HA by lra. unfold make_circle.
    rewrite sweep_id by (specialize (D a HA); lra).
    split.
    + intros (th & Hth & ->). rewrite circle_point_pt. exists (to_rad th / a). split.
      * assert (K : 0 <= to_rad th <= a).
        { unfold to_rad. replace a with (a * 180 / PI * PI / 180) by (field; lra). split.
          - replace 0 with (0 * PI / 180) by field. apply Rmult_le_compat_r; [lra|]. apply Rmult_le_compat_r; lra.
          - apply Rmult_le_compat_r; [lra|]. apply Rmult_le_compat_r; lra. }
        split.
        -- apply Rmult_le_reg_r with a; [lra|]. replace (to_rad th / a * a) with (to_rad th) by (field; lra). lra.
        -- apply Rmult_le_reg_r with a; [lra|]. replace (to_rad th / a * a) with (to_rad th) by (field; lra). lra.
      * f_equal. field. lra.
    + intros (s & Hs & ->). exists (a * s * 180 / PI). split.
      * replace (0 + (a * 180 / PI - 0)) with (a * 180 / PI) by ring. unfold Rdiv. split.
        -- rewrite <- (Rmult_0_l (/ PI)). apply Rmult_le_compat_r; [left; apply Rinv_0_lt_compat; lra|]. nra.
        -- apply Rmult_le_compat_r; [left; apply Rinv_0_lt_compat; lra|]. nra.
      * rewrite circle_point_pt, to_rad_deg'. reflexivity.
Qed.

Lemma arc_fresh_eval c r a ce m s : fresh c -> c_shape c = SArc r a ce m ->
  c_eval c s = arc_pt r ce m (a * c_t0 c + a * (c_t1 c - c_t0 c) * s).
Proof.
  intros F E. destruct (fresh_arc c r a ce m F E) as (T & S' & _).
  unfold c_eval, c_fun. rewrite (s2t_two_points c s S' T), E, arc_shape_pt. f_equal. ring.
Qed.

(** An untrimmed arc of at most one turn becomes an edge with the same points. *)
Theorem C82_untrimmed_arc c r a ce m : fresh c -> c_shape c = SArc r a ce m -> rotation m ->
  c_t0 c = 0 -> c_t1 c = 1 -> 0 < Rabs a <= 2 * PI ->
  exists e, arc_to_b123d c = Some e /\ forall p, e p <-> exists s, 0 <= s <= 1 /\ p = c_eval c s.
Proof.
  intros F E HM H0 H1 HA. exists (arc_edge r a ce m). split.
  - unfold arc_to_b123d. rewrite E, H0, H1. destruct (Req_EM_T 0 0); [|lra]. destruct (Req_EM_T 1 1); [reflexivity|lra].
  - intros p. rewrite (arc_edge_points r a ce m p HM HA). split; intros (s & Hs & ->); exists s; split; auto;
      rewrite (arc_fresh_eval c r a ce m s F E), H0, H1; f_equal; ring.
Qed.
Example C82_untrimmed_arc_example : exists e, arc_to_b123d (arc_curve 2 5 ORIGIN 0 0 0 true) = Some e /\
  forall p, e p <-> exists s, 0 <= s <= 1 /\ p = c_eval (arc_curve 2 5 ORIGIN 0 0 0 true) s.
Proof.
  pose proof PI2_3_2. apply (C82_untrimmed_arc _ 2 5 ORIGIN (euler_zyx 0 0 0)).
  - apply new_fresh.
  - reflexivity.
  - apply rotation_euler.
  - reflexivity.
  - reflexivity.
  - rewrite Rabs_right by lra. lra.
Qed.

Lemma frame_cross m : rotation m -> cross (col1 m) (col2 m) = col3 m.
Proof.
  intros H. destruct (rotation_cofactor m H) as (K1&K2&K3&K4&K5&K6&K7&K8&K9).
  destruct m. vec_simpl. apply vec_eq; vec_simpl; lra.
Qed.

(** The short arc between two points of a circle less than half a turn apart. *)
Lemma short_arc r ce m u b : 0 < r -> rotation m -> 0 < Rabs b < PI ->
  exists m2, rotation m2 /\
    c_shape (from_2_point_center (arc_pt r ce m u) (arc_pt r ce m (u + b)) ce 0 true) = SArc r (Rabs b) ce m2 /\
    forall s, arc_pt r ce m2 (Rabs b * s) = arc_pt r ce m (u + b * s).
Proof.
  intros Hr HM HB.
  destruct (cols_dot m (proj1 HM)) as (X & Y & XY & XZ & YZ & Z). pose proof (frame_cross m HM) as CR.
  pose proof (cross_cols m HM) as CR2.
  set (x := col1 m) in *. set (y := col2 m) in *. set (z := col3 m) in *.
  assert (VA : forall v, vsub (arc_pt r ce m v) ce = smul r (vadd (smul (cos v) x) (smul (sin v) y))).
  { intros v. unfold arc_pt. fold x y. rewrite vsub_vadd. reflexivity. }
  set (A := vsub (arc_pt r ce m u) ce). set (B := vsub (arc_pt r ce m (u + b)) ce).
  assert (EA : A = smul r (vadd (smul (cos u) x) (smul (sin u) y))) by apply VA.
  assert (EB : B = smul r (vadd (smul (cos (u + b)) x) (smul (sin (u + b)) y))) by apply VA.
  pose proof (sc1 u) as SU.
  assert (SB : sin b = sin (u + b) * cos u - cos (u + b) * sin u).
  { rewrite sin_plus, cos_plus. transitivity (sin b * (sin u * sin u + cos u * cos u)); [rewrite SU; ring|ring]. }
  assert (CB : cos b = cos (u + b) * cos u + sin (u + b) * sin u).
  { rewrite sin_plus, cos_plus. transitivity (cos b * (sin u * sin u + cos u * cos u)); [rewrite SU; ring|ring]. }
  assert (NA : norm A = r).
  { apply norm_eq; [lra|]. rewrite EA. clear - X Y XY SU.
    transitivity (r * r * (cos u * cos u * dot x x + 2 * (cos u * sin u) * dot x y + sin u * sin u * dot y y)); [vec_ring|].
    rewrite X, Y, XY. transitivity (r * r * (sin u * sin u + cos u * cos u)); [ring|rewrite SU; ring]. }
  assert (CAB : cross A B = smul (r * r * sin b) z).
  { rewrite EA, EB, SB, <- CR. clear. generalize (cos u), (sin u), (cos (u + b)), (sin (u + b)). intros. vec_ring. }
  assert (DAB : dot A B = r * r * cos b).
  { rewrite EA, EB, CB. clear - X Y XY. generalize (cos u), (sin u), (cos (u + b)), (sin (u + b)). intros cu su cv sv.
    transitivity (r * r * (cu * cv * dot x x + (cu * sv + su * cv) * dot x y + su * sv * dot y y)); [vec_ring|].
    rewrite X, Y, XY. ring. }
  (* direction *)
  assert (exists e, b = e * Rabs b /\ e * e = 1 /\ sin b = e * sin (Rabs b)) as (e & Eb & EE & SE).
  { destruct (Rlt_dec b 0).
    - exists (-1). rewrite Rabs_left by lra. rewrite sin_neg. repeat split; ring.
    - exists 1. rewrite Rabs_right by lra. repeat split; ring. }
  assert (SP : 0 < sin (Rabs b)) by (apply sin_gt_0; lra).
  assert (RE : Rabs e = 1).
  { assert (Rabs e * Rabs e = 1) by (rewrite <- Rabs_mult, EE; apply Rabs_R1). pose proof (Rabs_pos e). nra. }
  assert (NZ : norm z = 1) by (apply norm_eq; [lra|rewrite Z; ring]).
  assert (NC : norm (cross A B) = r * r * sin (Rabs b)).
  { rewrite CAB, norm_smul, NZ, SE. replace (r * r * (e * sin (Rabs b))) with (e * (r * r * sin (Rabs b))) by ring.
    rewrite Rabs_mult, RE, (Rabs_right (r * r * _)); [ring|]. apply Rle_ge. apply Rmult_le_pos; nra. }
  assert (CN : cross A B <> ORIGIN).
  { intros Z0. rewrite Z0, norm_ORIGIN in NC. assert (0 < r * r * sin (Rabs b)) by (apply Rmult_lt_0_compat; nra). lra. }
  assert (TH : angle_between A B = Rabs b).
  { unfold angle_between. rewrite NC, DAB.
    replace (cos b) with (cos (Rabs b)) by (destruct (Rlt_dec b 0); [rewrite Rabs_left, cos_neg by lra; reflexivity|rewrite Rabs_right by lra; reflexivity]).
    apply arctan2_polar; [nra|lra]. }
  assert (ZN : normalize (cross A B) = smul e z).
  { unfold normalize. rewrite NC, CAB, smul_smul, SE. f_equal. field. split; [lra|lra]. }
  assert (XN : normalize A = vadd (smul (cos u) x) (smul (sin u) y)).
  { unfold normalize. rewrite NA, EA, smul_smul, Rinv_l, smul_1 by lra. reflexivity. }
  set (x2 := normalize A) in *. set (z2 := normalize (cross A B)) in *.
  exists (of_cols x2 (cross z2 x2) z2). split; [apply two_point_frame; exact CN|]. split.
  - unfold from_2_point_center. fold A B. fold x2 z2. rewrite NA, TH.
    rewrite arc_frame_shape by (apply two_point_frame; exact CN). rewrite arc_new_shape. f_equal. ring.
  - intros s. unfold arc_pt. fold x y. do 2 f_equal.
    replace (col1 (of_cols x2 (cross z2 x2) z2)) with x2 by (destruct x2; reflexivity).
    replace (col2 (of_cols x2 (cross z2 x2) z2)) with (cross z2 x2) by (destruct (cross z2 x2); reflexivity).
    assert (YY : cross z2 x2 = vadd (smul (- e * sin u) x) (smul (e * cos u) y)).
    { rewrite ZN, XN. assert (CZ : cross z y = vopp x).
      { clear - HM. destruct (rotation_cofactor m HM) as (K1&K2&K3&K4&K5&K6&K7&K8&K9). subst x y z.
        destruct m. vec_simpl. apply vec_eq; vec_simpl; lra. }
      transitivity (vadd (smul (e * cos u) (cross z x)) (smul (e * sin u) (cross z y))).
      - clear. vec_ring.
      - rewrite CR2, CZ. clear. vec_ring. }
    rewrite YY, XN.
    assert (CS : cos (Rabs b * s) = cos (b * s) /\ e * sin (Rabs b * s) = sin (b * s)).
    { clear - EE Eb. rewrite Eb at 2 4. destruct (Rmult_integral (e - 1) (e + 1)) as [H|H]; [lra| |].
      - replace e with 1 by lra. split; [f_equal; ring|]. rewrite Rmult_1_l. f_equal. ring.
      - replace e with (-1) by lra. replace (-1 * Rabs b * s) with (- (Rabs b * s)) by ring.
        rewrite cos_neg, sin_neg. split; [reflexivity|ring]. }
    destruct CS as [C1 S1]. rewrite C1, cos_plus, sin_plus, <- S1.
    transitivity (vadd (smul (cos (b * s) * cos u - sin u * (e * sin (Rabs b * s))) x)
       (smul (cos (b * s) * sin u + cos u * (e * sin (Rabs b * s))) y)).
    + clear. generalize (cos (b * s)), (sin (Rabs b * s)), (cos u), (sin u). intros. vec_ring.
    + f_equal; f_equal; ring.
Qed.

Definition trimmed (c : curve) : Prop := c_t0 c <> 0 \/ c_t1 c <> 1.
Lemma trimmed_edge c r a ce m : c_shape c = SArc r a ce m -> trimmed c ->
  arc_to_b123d c = match c_shape (from_2_point_center (c_eval c 0) (c_eval c 1) ce 0 true) with
                   | SArc r2 a2 ce2 m2 => Some (arc_edge r2 a2 ce2 m2) | _ => None end.
Proof.
  intros E T. unfold arc_to_b123d. rewrite E. destruct (Req_EM_T (c_t0 c) 0), (Req_EM_T (c_t1 c) 1); try reflexivity.
  destruct T; contradiction.
Qed.

(** A trimmed, extended or reversed arc of less than half a turn keeps its points. *)
Theorem C82_trimmed_arc c r a ce m : fresh c -> c_shape c = SArc r a ce m -> rotation m -> 0 < r ->
  trimmed c -> 0 < Rabs (a * (c_t1 c - c_t0 c)) < PI ->
  exists e, arc_to_b123d c = Some e /\ forall p, e p <-> exists s, 0 <= s <= 1 /\ p = c_eval c s.
Proof.
  intros F E HM Hr T HB. rewrite (trimmed_edge c r a ce m E T).
  rewrite !(arc_fresh_eval c r a ce m _ F E), Rmult_0_r, Rplus_0_r, Rmult_1_r.
  destruct (short_arc r ce m (a * c_t0 c) (a * (c_t1 c - c_t0 c)) Hr HM HB) as (m2 & HM2 & ES & EP).
  rewrite ES. eexists. split; [reflexivity|]. intros p.
  rewrite (arc_edge_points r _ ce m2 p HM2) by (rewrite Rabs_Rabsolu; lra).
  split; intros (s & Hs & ->); exists s; split; auto; rewrite (arc_fresh_eval c r a ce m s F E); auto.
Qed.
Example C82_trimmed_arc_example : exists e, arc_to_b123d (set_end_on (arc_curve 2 3 ORIGIN 0 0 0 true) (1 / 2)) = Some e /\
  forall p, e p <-> exists s, 0 <= s <= 1 /\ p = c_eval (set_end_on (arc_curve 2 3 ORIGIN 0 0 0 true) (1 / 2)) s.
Proof.
  pose proof PI2_3_2 as PI2. set (c := set_end_on _ _).
  assert (T1 : c_t1 c = 1 / 2).
  { change (s2t (arc_curve 2 3 ORIGIN 0 0 0 true) (1 / 2) = 1 / 2). rewrite s2t_two_points by reflexivity.
    change (0 + (1 - 0) * (1 / 2) = 1 / 2). lra. }
  assert (T0 : c_t0 c = 0) by reflexivity.
  apply (C82_trimmed_arc c 2 3 ORIGIN (euler_zyx 0 0 0)).
  - apply set_end_fresh.
  - reflexivity.
  - apply rotation_euler.
  - lra.
  - right. rewrite T1. lra.
  - rewrite T1, T0, Rabs_right by lra. lra.
Qed.

(** A trimmed arc of more than half a turn is replaced by the rest of the circle. *)
Theorem C82_long_trimmed_arc c r a ce m : fresh c -> c_shape c = SArc r a ce m -> rotation m -> 0 < r ->
  trimmed c -> PI < Rabs (a * (c_t1 c - c_t0 c)) < 2 * PI ->
  exists e, arc_to_b123d c = Some e /\ e (c_eval c 0) /\ e (c_eval c 1) /\
    forall s, 0 < s < 1 -> ~ e (c_eval c s).
Proof.
  intros F E HM Hr T HB. rewrite (trimmed_edge c r a ce m E T).
  pose proof PI_RGT_0 as PP.
  assert (EV := fun s => arc_fresh_eval c r a ce m s F E).
  set (u := a * c_t0 c) in *. set (b := a * (c_t1 c - c_t0 c)) in *.
  assert (exists b', 0 < Rabs b' < PI /\ (b' = b - 2 * PI \/ b' = b + 2 * PI) /\ b * b' < 0 /\ Rabs b + Rabs b' = 2 * PI)
    as (b' & HB' & BB & SG & SM).
  { destruct (Rlt_dec b 0).
    - rewrite Rabs_left in HB by lra. exists (b + 2 * PI). rewrite (Rabs_left b), Rabs_right by lra. repeat split; auto; try lra. nra.
    - rewrite Rabs_right in HB by lra. exists (b - 2 * PI). rewrite (Rabs_right b), Rabs_left by lra. repeat split; auto; try lra. nra. }
  assert (PER : arc_pt r ce m (u + b) = arc_pt r ce m (u + b')).
  { unfold arc_pt. destruct BB as [-> | ->].
    - replace (u + (b - 2 * PI)) with (u + b + 2 * IZR (-1) * PI) by ring. rewrite cos_Zperiod, sin_Zperiod. reflexivity.
    - replace (u + (b + 2 * PI)) with (u + b + 2 * IZR 1 * PI) by ring. rewrite cos_Zperiod, sin_Zperiod. reflexivity. }
  destruct (short_arc r ce m u b' Hr HM HB') as (m2 & HM2 & ES & EP).
  rewrite (EV 0), (EV 1), Rmult_0_r, Rplus_0_r, Rmult_1_r, PER, ES. eexists. split; [reflexivity|].
  assert (EG := fun p => arc_edge_points r (Rabs b') ce m2 p HM2 ltac:(rewrite Rabs_Rabsolu; lra)).
  split; [|split].
  - apply EG. exists 0. split; [lra|]. rewrite EP, Rmult_0_r, Rplus_0_r. reflexivity.
  - apply EG. exists 1. split; [lra|]. rewrite EP, Rmult_1_r. reflexivity.
  - intros s Hs Hp. rewrite EV in Hp. apply EG in Hp. destruct Hp as (w & Hw & Q). rewrite EP in Q.
    unfold arc_pt in Q. apply vadd_cancel_r in Q.
    destruct (cols_dot m (proj1 HM)) as (X & Y & XY & _).
    pose proof (chord_frame r (u + b * s) (u + b' * w) (col1 m) (col2 m) ltac:(lra) X Y XY) as CH.
    rewrite Q, vsub_diag, norm_ORIGIN in CH.
    assert (SZ : sin ((u + b * s - (u + b' * w)) / 2) = 0).
    { assert (Rabs (sin ((u + b * s - (u + b' * w)) / 2)) = 0) by nra.
      destruct (Req_dec (sin ((u + b * s - (u + b' * w)) / 2)) 0); [assumption|].
      pose proof (Rabs_pos_lt _ H0). lra. }
    replace ((u + b * s - (u + b' * w)) / 2) with ((b * s - b' * w) / 2) in SZ by field.
    destruct (Rlt_dec b 0).
    + rewrite (Rabs_left b), (Rabs_right b') in SM by nra.
      assert (0 < sin (- ((b * s - b' * w) / 2))) by (apply sin_gt_0; nra). rewrite sin_neg in H. lra.
    + rewrite (Rabs_right b), (Rabs_left b') in SM by nra.
      assert (0 < sin ((b * s - b' * w) / 2)) by (apply sin_gt_0; nra). lra.
Qed.

(** An arc of angle 0 becomes the full circle. *)
Theorem C82_zero_arc_refuted c r ce m : fresh c -> c_shape c = SArc r 0 ce m -> rotation m -> 0 < r ->
  c_t0 c = 0 -> c_t1 c = 1 ->
  exists e, arc_to_b123d c = Some e /\ (forall u, e (arc_pt r ce m u)) /\ forall s, c_eval c s = arc_pt r ce m 0.
Proof.
  intros F E HM Hr H0 H1. pose proof PI_RGT_0 as PP. exists (arc_edge r 0 ce m). split; [|split].
  - unfold arc_to_b123d. rewrite E, H0, H1. destruct (Req_EM_T 0 0); [|lra]. destruct (Req_EM_T 1 1); [reflexivity|lra].
  - intros u. unfold arc_edge. pose proof (euler_as_euler m HM) as EE.
    destruct (as_euler_zyx m) as [[yaw pitch] roll]. rewrite intrinsic_extrinsic, !to_rad_deg', EE.
    destruct (Rlt_dec 0 0); [lra|]. unfold make_circle.
    assert (SW : sweep 0 (0 * 180 / PI) = 360).
    { unfold sweep. replace (0 * 180 / PI - 0) with 0 by (field; lra). replace (0 / 360) with 0 by field.
      rewrite (floorZ_IZR 0). destruct (Req_EM_T _ 0) as [|N]; [reflexivity|exfalso; apply N; ring]. }
    rewrite SW. pose proof (floorZ_bound (u / (2 * PI))) as FB. set (k := floorZ (u / (2 * PI))) in *.
    assert (UB : IZR k * (2 * PI) <= u < (IZR k + 1) * (2 * PI)).
    { destruct FB as [F1 F2]. apply (Rmult_le_compat_r (2 * PI)) in F1; [|lra].
      apply (Rmult_lt_compat_r (2 * PI)) in F2; [|lra]. unfold Rdiv in *. rewrite Rmult_assoc, Rinv_l, Rmult_1_r in F1, F2 by lra. lra. }
    exists ((u - IZR k * (2 * PI)) * 180 / PI). split.
    + unfold Rdiv. split.
      * rewrite <- (Rmult_0_l (/ PI)). apply Rmult_le_compat_r; [left; apply Rinv_0_lt_compat; lra|]. lra.
      * apply Rmult_le_reg_r with PI; [exact PP|]. rewrite Rmult_assoc, Rinv_l by lra. lra.
    + rewrite circle_point_pt, to_rad_deg'. unfold arc_pt.
      replace (u - IZR k * (2 * PI)) with (u + 2 * IZR (- k) * PI) by (rewrite opp_IZR; ring).
      rewrite cos_Zperiod, sin_Zperiod. reflexivity.
  - intros s. rewrite (arc_fresh_eval c r 0 ce m s F E). f_equal. ring.
Qed.

(** Lines: an untrimmed line keeps its points; trimming is ignored. *)
Theorem C82_line c p0 p1 : fresh c -> c_shape c = SLine p0 p1 ->
  exists e, line_to_b123d c = Some e /\
  (c_t0 c = 0 -> c_t1 c = 1 -> forall p, e p <-> exists s, 0 <= s <= 1 /\ p = c_eval c s) /\
  e p0 /\ e p1.
Proof.
  intros F E. eexists. unfold line_to_b123d. rewrite E. split; [reflexivity|]. split; [|split].
  - intros H0 H1 p. destruct (fresh_line c p0 p1 F E) as (T & S' & _).
    split; intros (s & Hs & ->); exists s; split; auto; unfold c_eval, c_fun; rewrite (s2t_two_points c s S' T), E, H0, H1;
      cbn [shape_fun]; f_equal; f_equal; ring.
  - exists 0. split; [lra|]. vec_ring.
  - exists 1. split; [lra|]. vec_ring.
Qed.
Example C82_line_example : exists e, line_to_b123d (line_curve RIGHT UP true) = Some e /\ e RIGHT /\ e UP.
Proof.
  destruct (C82_line (line_curve RIGHT UP true) RIGHT UP (new_fresh _ _ _ _) eq_refl) as (e & E & _ & A & B).
  exists e. auto.
Qed.
Theorem C82_trimmed_line_refuted : exists c e, fresh c /\ line_to_b123d c = Some e /\ e RIGHT /\
  forall s, 0 <= s <= 1 -> c_eval c s <> RIGHT.
Proof.
  exists (set_end_on (line_curve ORIGIN RIGHT true) (1 / 2)). eexists.
  assert (F : fresh (set_end_on (line_curve ORIGIN RIGHT true) (1 / 2))) by apply update_fresh.
  split; [exact F|].
  assert (E : c_shape (set_end_on (line_curve ORIGIN RIGHT true) (1 / 2)) = SLine ORIGIN RIGHT) by reflexivity.
  unfold line_to_b123d. rewrite E. split; [reflexivity|]. split.
  - exists 1. split; [lra|]. vec_ring.
  - intros s Hs. destruct (fresh_line _ _ _ F E) as (T & S' & _).
    unfold c_eval, c_fun. rewrite (s2t_two_points _ s S' T), E.
    replace (c_t0 (set_end_on (line_curve ORIGIN RIGHT true) (1 / 2))) with 0 by reflexivity.
    replace (c_t1 (set_end_on (line_curve ORIGIN RIGHT true) (1 / 2))) with (1 / 2).
    + cbn. intros Q. injection Q. lra.
    + change (1 / 2 = s2t (line_curve ORIGIN RIGHT true) (1 / 2)). rewrite s2t_two_points by reflexivity.
      change (c_t0 (line_curve ORIGIN RIGHT true)) with 0. change (c_t1 (line_curve ORIGIN RIGHT true)) with 1. lra.
Qed.
(** A three-quarter arc cut from a circle: the edge misses its inner points. *)
Example C82_example : exists e, arc_to_b123d (set_end_on (arc_curve 2 (2 * PI) ORIGIN 0 0 0 true) (3 / 4)) = Some e /\
  forall s, 0 < s < 1 -> ~ e (c_eval (set_end_on (arc_curve 2 (2 * PI) ORIGIN 0 0 0 true) (3 / 4)) s).
Proof.
  pose proof PI_RGT_0. set (c := set_end_on _ _).
  assert (T1 : c_t1 c = 3 / 4).
  { change (s2t (arc_curve 2 (2 * PI) ORIGIN 0 0 0 true) (3 / 4) = 3 / 4). rewrite s2t_two_points by reflexivity.
    change (0 + (1 - 0) * (3 / 4) = 3 / 4). lra. }
  assert (T0 : c_t0 c = 0) by reflexivity.
  destruct (C82_long_trimmed_arc c 2 (2 * PI) ORIGIN (euler_zyx 0 0 0)) as (e & E & _ & _ & N).
  - apply update_fresh.
  - reflexivity.
  - apply rotation_euler.
  - lra.
  - right. rewrite T1. lra.
  - rewrite T0, T1. rewrite Rabs_right by lra. lra.
  - exists e. split; [exact E|exact N].
Qed.

(** ** C83 *)
Definition turned_by (T : gtransform) (x : R) : gtransform := mkG (g_center T) (g_orient T) (g_scale T) (g_angle T + x).
Lemma boundary_loop_eq n : forall T pitch, boundary_loop T pitch n =
  (map (fun i => turned_by T (INR i * pitch)) (seq 0 n), turned_by T (INR n * pitch)).
Proof.
  induction n as [|n IH]; intros T pitch; cbn [boundary_loop].
  - cbn. f_equal. unfold turned_by. destruct T. cbn. f_equal. ring.
  - rewrite IH. cbn [seq map]. f_equal.
    + f_equal; [unfold turned_by; destruct T; cbn; f_equal; ring|]. rewrite <- seq_shift, map_map. apply map_ext.
      intros i. unfold turned_by. cbn [g_center g_orient g_scale g_angle]. f_equal. rewrite S_INR. ring.
    + unfold turned_by. cbn [g_center g_orient g_scale g_angle]. f_equal. rewrite S_INR. ring.
Qed.
(** The copies of the profile follow each other at the pitch angle, starting at the given transform; for
    the full turn there is one per tooth. *)
Theorem C83_copies T (n : positive) : let pitch := 2 * PI / IZR (Zpos n) in
  fst (boundary_edges T (2 * PI) pitch) = map (fun i => turned_by T (INR i * pitch)) (seq 0 (Pos.to_nat n)).
Proof.
  intros pitch. unfold boundary_edges. rewrite boundary_loop_eq. cbn [fst]. do 2 f_equal.
  assert (0 < IZR (Zpos n)) by (apply IZR_lt; lia). pose proof PI_RGT_0.
  replace (2 * PI / pitch) with (IZR (Zpos n)) by (unfold pitch; field; lra). rewrite roundZ_IZR. lia.
Qed.
(** The caller's transform is left turned by the number of copies times the pitch angle: after a full turn
    it still moves points as before (with an angle one turn larger), after part of a turn it does not. *)
Theorem C83_caller_transform T range pitch :
  snd (boundary_edges T range pitch) = turned_by T (INR (Z.to_nat (roundZ (range / pitch))) * pitch).
Proof. unfold boundary_edges. rewrite boundary_loop_eq. reflexivity. Qed.
Theorem C83_full_turn T (n : positive) p : let pitch := 2 * PI / IZR (Zpos n) in
  let T' := snd (boundary_edges T (2 * PI) pitch) in
  g_angle T' = g_angle T + 2 * PI /\ apply_gear_transform p T' = apply_gear_transform p T.
Proof.
  intros pitch T'. unfold T'. rewrite C83_caller_transform.
  assert (0 < IZR (Zpos n)) by (apply IZR_lt; lia). pose proof PI_RGT_0.
  replace (2 * PI / pitch) with (IZR (Zpos n)) by (unfold pitch; field; lra). rewrite roundZ_IZR, INR_IZR_INZ.
  rewrite Z2Nat.id by lia. unfold turned_by. cbn [g_angle].
  assert (E : IZR (Zpos n) * pitch = 2 * PI) by (unfold pitch; field; lra). rewrite E. split; [reflexivity|].
  rewrite !apply_gear_transform_eq. cbn [g_center g_orient g_scale g_angle].
  replace (g_angle T + 2 * PI) with (g_angle T + 2 * IZR 1 * PI) by ring. unfold rotz. rewrite cos_Zperiod, sin_Zperiod. reflexivity.
Qed.
Theorem C83_partial_range_refuted : exists T range pitch p,
  apply_gear_transform p (snd (boundary_edges T range pitch)) <> apply_gear_transform p T.
Proof.
  exists g_default, (PI / 2), (PI / 2), RIGHT. rewrite C83_caller_transform. pose proof PI_RGT_0.
  replace (PI / 2 / (PI / 2)) with (IZR 1) by (field; lra). rewrite roundZ_IZR.
  rewrite !apply_gear_transform_eq. unfold turned_by, g_default. cbn [g_center g_orient g_scale g_angle].
  replace (0 + INR (Z.to_nat 1) * (PI / 2)) with (PI / 2) by (change (INR (Z.to_nat 1)) with 1; ring). unfold rotz. rewrite cos_PI2, sin_PI2, cos_0, sin_0.
  intros Q. apply (f_equal vx) in Q. revert Q. cbv -[Rplus Rmult Ropp Rminus IZR PI]. lra.
Qed.
Example C83_example : length (fst (boundary_edges g_default (2 * PI) (2 * PI / 13))) = 13%nat.
Proof. rewrite (C83_copies g_default 13). rewrite map_length, seq_length. reflexivity. Qed.
