(** C123: the flank and the part of a cylindrical cycloid gear. *)
From Coq Require Import Nsatz Reals Ranalysis5 ZArith Lra Lia List Bool Arith Permutation.
From Verif Require Import Num Vec Coords CoordsProps Transform TransformProps Params Bezier BezierLem BezierProps Interp Curve CurveLem CurveProps
  ArcLem ArcProps Chain ChainLem ChainProps NurbsProps Gen GenProps GearMath GearLem MeshDistProps Tooth Wrapper Info InfoProps HelicalProps RefLines RefLinesProps Profile ProfileLem ProfileProps
  Build BuildProps Cycloid Convert ConvertProps NurbConvProps Fillet FilletProps FlankProps ReduceProps Teeth RackConjProps UndercutProps RisingLem Report ReportProps MeshProps SpurProps RadiiProps Faces FacesProps Part PartProps
  ClimbLem DefaultProps ReliefProps FitProps CycPart.
From Verif Require IndexProps.
Import ListNotations.
Open Scope R_scope.

(** ** Specification *)
(** The point of a circle of radius [|rc|] that rolls on the pitch circle, outside for [rc > 0] and inside for [rc < 0]; [t] is the angle by
    which the point of contact has moved, and the point starts on the pitch circle at the angle [- pia]. *)
Definition trace (rp rc pia t : R) : vec :=
  V ((rp + rc) * cos (t - pia) - rc * cos (t - pia + t * rp / rc)) ((rp + rc) * sin (t - pia) - rc * sin (t - pia + t * rp / rc)) 0.
(** The flank below and above the pitch circle. *)
Definition lower_pt (rp rin pia t : R) : vec := trace rp (- (rin * rp)) pia t.
Definition upper_pt (rp rout pia t : R) : vec := trace rp (rout * rp) pia t.

(** A tooth whose flank passes the root circle at the angle [pd], before a quarter turn of the inner rolling circle, and the tip circle at the
    angle [pa], before half a turn of the outer one: there is a land at the tip and a gap at the root. *)
Record cyc_shape (rp rin rout pia ha hd pitch td pd ta pa : R) : Prop := {
  cy_rp : 0 < rp; cy_rin : 0 < rin < 1; cy_rout : 0 < rout; cy_pia : 0 < pia; cy_pitch : 0 < pitch < PI;
  cy_td : - (rin * PI / 2) <= td < 0; cy_root : lower_pt rp rin pia td = circle_pt (rp - hd) pd; cy_rd : 0 < rp - hd; cy_gap : - (pitch / 2) < pd <= 0;
  cy_ta : 0 < ta <= rout * PI; cy_tip : upper_pt rp rout pia ta = circle_pt (rp + ha) pa; cy_ra : 0 < rp + ha; cy_land : - (PI / 2) < pa < 0 }.
(** The end of the upper curve that the tooth generator looked for lies beyond the tip circle. *)
Definition cyc_top (rp rout pia ta s : R) : Prop := ta <= s2t (cyc_upper rp rout pia) s <= rout * PI.

(** ** The curves *)
Lemma trace_is t rp rc pia : cycloid_circle t rp rc (- pia) ORIGIN 0 = trace rp rc pia t.
Proof.
  unfold cycloid_circle, trace. change (t - pia) with (t + - pia). set (b := t * rp / rc). set (a := t + - pia). rewrite (cos_plus a b), (sin_plus a b).
  generalize (sin a) (cos a) (sin b) (cos b) a b. intros. apply vec_eq; unfold vadd, smul, mapp, rotz, RIGHT, LEFT, OUT, ORIGIN; cbn; fold a; ring.
Qed.
Lemma trace_rad rp rc pia t : rad2 (trace rp rc pia t) = rp * rp + 2 * rc * (rp + rc) * (1 - cos (t * rp / rc)).
Proof.
  unfold rad2, trace. cbn [vx vy]. set (a := t - pia). set (b := t * rp / rc). rewrite cos_plus, sin_plus.
  pose proof (sc1 a) as A. pose proof (sc1 b) as B. revert A B. generalize (sin a) (cos a) (sin b) (cos b). clear. intros. nsatz.
Qed.
Lemma lower_rad rp rin pia t : 0 < rp -> 0 < rin -> rad2 (lower_pt rp rin pia t) = rp * rp * (1 - 2 * rin * (1 - rin) * (1 - cos (t / rin))).
Proof.
  intros P I. unfold lower_pt. rewrite trace_rad. replace (t * rp / - (rin * rp)) with (- (t / rin)) by (field; lra). rewrite cos_neg. ring.
Qed.
Lemma upper_rad rp rout pia t : 0 < rp -> 0 < rout -> rad2 (upper_pt rp rout pia t) = rp * rp * (1 + 2 * rout * (1 + rout) * (1 - cos (t / rout))).
Proof.
  intros P I. unfold upper_pt. rewrite trace_rad. replace (t * rp / (rout * rp)) with (t / rout) by (field; lra). ring.
Qed.
Lemma div_lt_r x y r : 0 < r -> x < y -> x / r < y / r.
Proof. intros R0 H. unfold Rdiv. apply Rmult_lt_compat_r; [apply Rinv_0_lt_compat, R0|exact H]. Qed.
Lemma div_le_r x y r : 0 < r -> x <= y -> x / r <= y / r.
Proof. intros R0 H. unfold Rdiv. apply Rmult_le_compat_r; [left; apply Rinv_0_lt_compat, R0|exact H]. Qed.
Lemma lower_up rp rin pia t t' : 0 < rp -> 0 < rin < 1 -> - (rin * PI) <= t -> t < t' -> t' <= 0 -> rad2 (lower_pt rp rin pia t) < rad2 (lower_pt rp rin pia t').
Proof.
  intros P I T0 T1 T2. rewrite !lower_rad by lra.
  assert (A : - PI <= t / rin) by (replace (- PI) with (- (rin * PI) / rin) by (field; lra); apply div_le_r; lra).
  assert (B : t / rin < t' / rin) by (apply div_lt_r; lra).
  assert (C : t' / rin <= 0) by (replace 0 with (0 / rin) by (field; lra); apply div_le_r; lra).
  assert (D : cos (t / rin) < cos (t' / rin)) by (rewrite <- (cos_neg (t / rin)), <- (cos_neg (t' / rin)); apply cos_decreasing_1; lra).
  assert (E : 0 < rp * rp) by (apply Rmult_lt_0_compat; lra). apply Rmult_lt_compat_l; [exact E|].
  assert (F : 0 < rin * (1 - rin)) by (apply Rmult_lt_0_compat; lra).
  assert (G : 0 < rin * (1 - rin) * (cos (t' / rin) - cos (t / rin))) by (apply Rmult_lt_0_compat; lra). lra.
Qed.
Lemma upper_up rp rout pia t t' : 0 < rp -> 0 < rout -> 0 <= t -> t < t' -> t' <= rout * PI -> rad2 (upper_pt rp rout pia t) < rad2 (upper_pt rp rout pia t').
Proof.
  intros P I T0 T1 T2. rewrite !upper_rad by lra.
  assert (A : 0 <= t / rout) by (replace 0 with (0 / rout) by (field; lra); apply div_le_r; lra).
  assert (B : t / rout < t' / rout) by (apply div_lt_r; lra).
  assert (C : t' / rout <= PI) by (replace PI with ((rout * PI) / rout) by (field; lra); apply div_le_r; lra).
  assert (D : cos (t' / rout) < cos (t / rout)) by (apply cos_decreasing_1; lra).
  assert (E : 0 < rp * rp) by (apply Rmult_lt_0_compat; lra). apply Rmult_lt_compat_l; [exact E|].
  assert (F : 0 < rout * (1 + rout)) by (apply Rmult_lt_0_compat; lra).
  assert (G : 0 < rout * (1 + rout) * (cos (t / rout) - cos (t' / rout))) by (apply Rmult_lt_0_compat; lra). lra.
Qed.
Lemma trace_0 rp rc pia : trace rp rc pia 0 = circle_pt rp (- pia).
Proof. unfold trace, circle_pt. replace (0 * rp / rc) with 0 by (unfold Rdiv; ring). rewrite Rplus_0_r, Rminus_0_l. apply vec_eq; cbn; ring. Qed.
Lemma lower_fun rp rin pia t : c_fun (cyc_lower rp rin pia) t = lower_pt rp rin pia t.
Proof. change (cycloid_circle t rp (- rin * rp) (- pia) ORIGIN 0 = lower_pt rp rin pia t). rewrite trace_is. unfold lower_pt. f_equal. ring. Qed.
Lemma upper_fun rp rout pia t : c_fun (cyc_upper rp rout pia) t = upper_pt rp rout pia t.
Proof. change (cycloid_circle t rp (rout * rp) (- pia) ORIGIN 0 = upper_pt rp rout pia t). apply trace_is. Qed.

Definition cyc_place (rp rin rout pia top : R) (p : vec) : Prop :=
  (exists x, - (rin * PI / 2) <= x <= 0 /\ p = lower_pt rp rin pia x) \/ (exists x, 0 <= x <= top /\ p = upper_pt rp rout pia x).

(** The tooth curve rises from the inner end of the lower curve to the end of the upper one. *)
Lemma cyc_tooth_rising rp rin rout pia s : 0 < rp -> 0 < rin < 1 -> 0 < rout -> 0 < s2t (cyc_upper rp rout pia) s <= rout * PI ->
  let n := cyc_tooth rp rin rout pia s in let lo := cyc_lower rp rin pia in let up := set_end_on (cyc_upper rp rout pia) s in
  rising_node rad2 n /\ within (cyc_place rp rin rout pia (s2t (cyc_upper rp rout pia) s)) n /\ leaves n = [lo; up] /\ n = Chain true (map Prim [lo; up]) /\
  c_eval lo 1 = circle_pt rp (- pia) /\ c_t0 lo = - (rin * PI / 2) /\ c_t1 lo = 0 /\ c_t0 up = 0 /\ c_t1 up = s2t (cyc_upper rp rout pia) s /\
  (forall x, c_fun up x = upper_pt rp rout pia x).
Proof.
  intros P RI RO TP n lo up. set (T := s2t (cyc_upper rp rout pia) s) in *. pose proof PI_RGT_0 as PIP.
  assert (FL : fresh lo) by apply new_fresh. assert (FU : fresh up) by apply set_end_fresh.
  assert (NL : (2 <= c_ndiv lo)%nat) by apply NDIV_2. assert (NU : (2 <= c_ndiv up)%nat) by apply NDIV_2.
  assert (DL0 : c_t0 lo = - (rin * PI / 2)) by (unfold lo; cbn; field). assert (DL1 : c_t1 lo = 0) by reflexivity.
  assert (DU0 : c_t0 up = 0) by reflexivity. assert (DU1 : c_t1 up = T) by reflexivity.
  assert (UF : forall x, c_fun up x = upper_pt rp rout pia x).
  { intros x. unfold up, set_end_on. rewrite update_fun. apply upper_fun. }
  assert (RL : rising rad2 lo).
  { split; try assumption.
    - reflexivity.
    - left. eexists. reflexivity.
    - rewrite DL0, DL1. assert (0 < rin * PI) by (apply Rmult_lt_0_compat; lra). lra.
    - rewrite DL0, DL1. intros t t' A B C. unfold lo. rewrite !lower_fun. assert (0 < rin * PI) by (apply Rmult_lt_0_compat; lra). apply lower_up; lra. }
  assert (RU : rising rad2 up).
  { split; try assumption.
    - reflexivity.
    - left. eexists. reflexivity.
    - rewrite DU0, DU1. apply TP.
    - rewrite DU0, DU1. intros t t' A B C. rewrite !UF. apply upper_up; lra. }
  assert (E1 : c_eval lo 1 = circle_pt rp (- pia)) by (rewrite fresh_end by assumption; rewrite DL1; unfold lo; rewrite lower_fun; apply trace_0).
  assert (E0 : c_eval up 0 = circle_pt rp (- pia)) by (rewrite fresh_start by assumption; rewrite DU0, UF; apply trace_0).
  assert (LV : leaves (Chain true [Prim lo; Prim up]) = [lo; up]) by reflexivity.
  assert (EN : n = Chain true [Prim lo; Prim up]).
  { unfold n, cyc_tooth. fold lo up. unfold new_chain. apply update_id; [reflexivity|]. rewrite LV. constructor; [exact FL|constructor; [exact FU|constructor]]. }
  rewrite EN. split; [|split; [|split; [exact LV|split; [reflexivity|auto 8]]]].
  - split; [reflexivity| |].
    + rewrite LV. constructor; [exact RL|constructor; [exact RU|constructor]].
    + rewrite LV. split; [congruence|exact I].
  - unfold within. rewrite LV. constructor; [|constructor; [|constructor]].
    + intros x X. left. exists x. rewrite DL0, DL1 in X. split; [exact X|apply lower_fun].
    + intros x X. right. exists x. rewrite DU0, DU1 in X. split; [exact X|apply UF].
Qed.

Lemma end_points up uc u : rising rad2 up -> 0 < uc <= 1 -> 0 <= u <= 1 -> exists x, c_t0 up <= x <= c_t1 up /\ c_eval (set_end_on up uc) u = c_fun up x.
Proof.
  intros R1 UC U. pose proof (rising_end rad2 up uc R1 UC) as R2. pose proof (rising_dom rad2 _ u R2 U) as DD. pose proof (rising_dom rad2 up uc R1 ltac:(lra)) as D1.
  exists (s2t (set_end_on up uc) u). split.
  - revert DD. generalize (s2t (set_end_on up uc) u). intros x DD. unfold set_end_on in DD. rewrite update_t0, update_t1 in DD. cbn [with_domain c_t0 c_t1] in DD. lra.
  - unfold c_eval. generalize (s2t (set_end_on up uc) u). intros x. unfold set_end_on. rewrite update_fun. reflexivity.
Qed.
Lemma two_leaves n1 lo hi y m : rising_node rad2 n1 -> leaves n1 = [lo; hi] -> 0 <= y < 1 -> (forall u, 0 <= u <= 1 -> n_point n1 y <> c_eval hi u) ->
  n_set_start false n1 y = Ok m -> length (leaves m) = 2%nat.
Proof.
  intros RN1 LN1 Y NE EM. pose proof (rn_usable rad2 n1 RN1) as U.
  destruct (set_start_spec n1 (rn_act _ _ RN1) (proj1 (proj2 U)) (rn_fresh _ _ RN1) false y) as (pre & c & post & u & m' & L & E & LM & EV & PL & PA & PB).
  rewrite EM in E. apply Ok_inj in E. subst m'. rewrite LM.
  assert (PS : List.Forall (fun c => 0 < c_length c) (leaves n1)) by apply (rising_positive rad2), RN1.
  rewrite (leaves_wf n1 (rn_act _ _ RN1) PS y) in EV. apply Ok_inj in EV.
  destruct pre as [|d0 [|d1 pre]]; rewrite LN1 in L; cbn [app] in L.
  - injection L as _ <-. reflexivity.
  - exfalso. injection L as <- <- <-. rewrite LN1 in PS. pose proof (n_length_total n1 (rn_act _ _ RN1)) as NL. rewrite LN1 in NL.
    assert (PC : 0 < c_length hi) by exact (Forall_inv (Forall_inv_tail PS)).
    assert (TP : 0 < total [lo; hi]) by (apply positive_total; split; [discriminate|exact PS]).
    destruct (cut_place [lo] hi [] u y (n_length n1) PS NL (PL ltac:(lra) ltac:(lra)) PA PB) as (V0 & _ & V1 & _). specialize (V0 ltac:(lra)). specialize (V1 ltac:(lra)).
    apply (NE u); [lra|exact EV].
  - injection L as _ _ L. destruct pre; discriminate L.
Qed.

(** The root point and the tip point are the only ones on their circles. *)
Section Shape.
  Variables (rp rin rout pia ha hd pitch td pd ta pa : R).
  Hypothesis CS : cyc_shape rp rin rout pia ha hd pitch td pd ta pa.
  Let P := cy_rp _ _ _ _ _ _ _ _ _ _ _ CS.
  Let RI := cy_rin _ _ _ _ _ _ _ _ _ _ _ CS.
  Let RO := cy_rout _ _ _ _ _ _ _ _ _ _ _ CS.
  Let TD := cy_td _ _ _ _ _ _ _ _ _ _ _ CS.
  Let TA := cy_ta _ _ _ _ _ _ _ _ _ _ _ CS.
  Lemma cs_pi : 0 < rin * PI. Proof. pose proof PI_RGT_0. apply Rmult_lt_0_compat; [apply RI|lra]. Qed.
  Lemma root_rad : rad2 (lower_pt rp rin pia td) = (rp - hd) * (rp - hd).
  Proof. rewrite (cy_root _ _ _ _ _ _ _ _ _ _ _ CS). apply rad2_circle. Qed.
  Lemma tip_rad : rad2 (upper_pt rp rout pia ta) = (rp + ha) * (rp + ha).
  Proof. rewrite (cy_tip _ _ _ _ _ _ _ _ _ _ _ CS). apply rad2_circle. Qed.
  Lemma pitch_rad rc : rad2 (trace rp rc pia 0) = rp * rp.
  Proof. rewrite trace_0. apply rad2_circle. Qed.
  Lemma lower_rank x : - (rin * PI / 2) <= x <= 0 -> (x < td -> rad2 (lower_pt rp rin pia x) < (rp - hd) * (rp - hd)) /\
    (td < x -> (rp - hd) * (rp - hd) < rad2 (lower_pt rp rin pia x)) /\ rad2 (lower_pt rp rin pia x) <= rp * rp.
  Proof.
    intros X. pose proof cs_pi. rewrite <- root_rad. split; [|split].
    - intros L. apply lower_up; try assumption; lra.
    - intros L. apply lower_up; try assumption; lra.
    - destruct (Req_dec x 0) as [->|N]; [unfold lower_pt; rewrite pitch_rad; lra|]. left. rewrite <- (pitch_rad (- (rin * rp))). apply lower_up; try assumption; lra.
  Qed.
  Lemma upper_rank x : 0 <= x <= rout * PI -> (x < ta -> rad2 (upper_pt rp rout pia x) < (rp + ha) * (rp + ha)) /\
    (ta < x -> (rp + ha) * (rp + ha) < rad2 (upper_pt rp rout pia x)) /\ rp * rp <= rad2 (upper_pt rp rout pia x).
  Proof.
    intros X. rewrite <- tip_rad. split; [|split].
    - intros L. apply upper_up; try assumption; lra.
    - intros L. apply upper_up; try assumption; lra.
    - destruct (Req_dec x 0) as [->|N]; [unfold upper_pt; rewrite pitch_rad; lra|]. left. rewrite <- (pitch_rad (rout * rp)). apply upper_up; try assumption; lra.
  Qed.
  Lemma order : (rp - hd) * (rp - hd) < rp * rp /\ rp * rp < (rp + ha) * (rp + ha).
  Proof.
    pose proof cs_pi. split.
    - rewrite <- root_rad, <- (pitch_rad (- (rin * rp))). apply lower_up; try assumption; lra.
    - rewrite <- tip_rad, <- (pitch_rad (rout * rp)). apply upper_up; try assumption; lra.
  Qed.
  Lemma order' : rp - hd < rp /\ rp < rp + ha.
  Proof. destruct order. split; apply sq_lt; try assumption; apply CS. Qed.
  Lemma at_root top p : top <= rout * PI -> cyc_place rp rin rout pia top p -> rad2 p = (rp - hd) * (rp - hd) -> p = circle_pt (rp - hd) pd.
  Proof.
    intros T [(x & X & ->)|(x & X & ->)] E.
    - destruct (lower_rank x X) as (A & B & _). rewrite <- (cy_root _ _ _ _ _ _ _ _ _ _ _ CS). f_equal. destruct (Rtotal_order x td) as [L|[L|L]]; [specialize (A L); lra|exact L|specialize (B L); lra].
    - destruct (upper_rank x ltac:(lra)) as (_ & _ & C). destruct order. lra.
  Qed.
  Lemma at_tip top p : top <= rout * PI -> cyc_place rp rin rout pia top p -> rad2 p = (rp + ha) * (rp + ha) -> p = circle_pt (rp + ha) pa.
  Proof.
    intros T [(x & X & ->)|(x & X & ->)] E.
    - destruct (lower_rank x X) as (_ & _ & C). destruct order. lra.
    - destruct (upper_rank x ltac:(lra)) as (A & B & _). rewrite <- (cy_tip _ _ _ _ _ _ _ _ _ _ _ CS). f_equal. destruct (Rtotal_order x ta) as [L|[L|L]]; [specialize (A L); lra|exact L|specialize (B L); lra].
  Qed.
  Lemma between top p : top <= rout * PI -> cyc_place rp rin rout pia top p -> (rp - hd) * (rp - hd) <= rad2 p <= (rp + ha) * (rp + ha) ->
    (exists x, td <= x <= 0 /\ p = lower_pt rp rin pia x) \/ (exists x, 0 <= x <= ta /\ p = upper_pt rp rout pia x).
  Proof.
    intros T [(x & X & ->)|(x & X & ->)] E; [left|right]; exists x; (split; [|reflexivity]).
    - destruct (lower_rank x X) as (A & _). destruct (Rlt_dec x td) as [L|L]; [specialize (A L); lra|lra].
    - destruct (upper_rank x ltac:(lra)) as (_ & B & _). destruct (Rlt_dec ta x) as [L|L]; [specialize (B L); lra|lra].
  Qed.

  (** ** The trimmed flank *)
  Section Cut.
    Variable s : R.
    Hypothesis TOP : cyc_top rp rout pia ta s.
    Let n := cyc_tooth rp rin rout pia s.
    Let lo := cyc_lower rp rin pia.
    Let up := set_end_on (cyc_upper rp rout pia) s.
    Let T := s2t (cyc_upper rp rout pia) s.
    Lemma tooth_facts : rising_node rad2 n /\ within (cyc_place rp rin rout pia T) n /\ leaves n = [lo; up] /\ n = Chain true (map Prim [lo; up]) /\
      c_eval lo 1 = circle_pt rp (- pia) /\ c_t0 lo = - (rin * PI / 2) /\ c_t1 lo = 0 /\ c_t0 up = 0 /\ c_t1 up = T /\
      (forall x, c_fun up x = upper_pt rp rout pia x) /\ rising rad2 lo /\ rising rad2 up.
    Proof.
      destruct TOP as (TOP1 & TOP2). fold T in TOP1, TOP2.
      destruct (cyc_tooth_rising rp rin rout pia s P RI RO ltac:(fold T; lra)) as (RN & W & LV & EN & E1 & L0 & L1 & U0 & U1 & UF).
      pose proof (rn_leaves _ _ RN) as RL. rewrite LV in RL. pose proof (Forall_inv RL) as R0. pose proof (Forall_inv (Forall_inv_tail RL)) as R1.
      exact (conj RN (conj W (conj LV (conj EN (conj E1 (conj L0 (conj L1 (conj U0 (conj U1 (conj UF (conj R0 R1))))))))))).
    Qed.
    Lemma tip_leaves x : 0 < x <= 1 -> n_point n x = circle_pt (rp + ha) pa ->
      exists n1 uc, n_set_end false n x = Ok n1 /\ rising_node rad2 n1 /\ within (cyc_place rp rin rout pia T) n1 /\ n_point n1 1 = n_point n x /\
        0 < uc <= 1 /\ leaves n1 = [lo; set_end_on up uc] /\ c_eval (set_end_on up uc) 1 = n_point n1 1 /\ s2t up uc = ta.
    Proof.
      intros X QX. destruct tooth_facts as (RN & W & LV & EN & E1 & L0 & L1 & U0 & U1 & UF & R0 & R1). pose proof order as (O1 & O2).
      destruct (rn_end rad2 _ n x RN W X) as (n1 & EN1 & RN1 & W1 & S1 & T1 & pre & c & post & uc & LN & LN1 & UC & CU & CE).
      exists n1, uc. split; [exact EN1|]. split; [exact RN1|]. split; [exact W1|]. split; [exact T1|]. split; [exact UC|].
      assert (CC : c = up /\ pre = [lo]).
      { rewrite LV in LN. destruct pre as [|d0 [|d1 pre]]; cbn [app] in LN.
        - exfalso. injection LN as <- _. rewrite QX in CU. unfold c_eval in CU. unfold lo at 1 in CU. rewrite lower_fun in CU. apply (f_equal rad2) in CU. rewrite rad2_circle in CU.
          pose proof (rising_dom rad2 lo uc R0 ltac:(lra)) as DD. rewrite L0, L1 in DD. destruct (lower_rank (s2t lo uc) DD) as (_ & _ & Q). lra.
        - injection LN as <- <- _. auto.
        - injection LN as _ _ LN. destruct pre; discriminate LN. }
      destruct CC as [-> ->]. split; [exact LN1|]. split; [exact CE|].
      rewrite QX in CU. unfold c_eval in CU. rewrite UF in CU. apply (f_equal rad2) in CU. rewrite rad2_circle in CU.
      pose proof (rising_dom rad2 up uc R1 ltac:(lra)) as DD. rewrite U0, U1 in DD. destruct TOP as (TOP1 & TOP2). fold T in TOP2.
      destruct (upper_rank (s2t up uc) ltac:(lra)) as (A & B & _). destruct (Rtotal_order (s2t up uc) ta) as [L|[L|L]]; [specialize (A L); lra|exact L|specialize (B L); lra].
    Qed.
    Lemma root_leaves n1 uc y m : rising_node rad2 n1 -> leaves n1 = [lo; set_end_on up uc] -> 0 < uc <= 1 -> 0 <= y < 1 ->
      n_point n1 y = circle_pt (rp - hd) pd -> n_set_start false n1 y = Ok m -> length (leaves m) = 2%nat.
    Proof.
      intros RN1 LN1 UC Y QY EM. destruct tooth_facts as (RN & W & LV & EN & E1 & L0 & L1 & U0 & U1 & UF & R0 & R1). pose proof order as (O1 & O2).
      apply (two_leaves n1 lo (set_end_on up uc) y m RN1 LN1 Y); [|exact EM]. intros u U EV.
      destruct (end_points up uc u R1 UC U) as (x & X & EX). rewrite QY, EX, UF in EV. rewrite U0, U1 in X. destruct TOP as (TOP1 & TOP2). fold T in TOP2.
      apply (f_equal rad2) in EV. rewrite rad2_circle in EV. destruct (upper_rank x ltac:(lra)) as (_ & _ & Q). lra.
    Qed.
  End Cut.

  Lemma cyc_flank_made sv s ho br : cyc_top rp rout pia ta s ->
    let n := cyc_tooth rp rin rout pia s in let rc := generate_reference_circles rp ha hd ho 0 br in
    tip_found sv n (rc_a rc) pitch -> (forall n1, trim_tip sv n (rc_a rc) 0 pitch = Ok n1 -> root_found sv n1 (rc_d rc) pitch) ->
    exists t, trim_flank sv n rc 0 0 pitch = Ok t /\ flank_ok t /\ not_opposite t pitch /\ List.Forall fresh (leaves n) /\ flat_tooth n /\
      n_point t 0 = circle_pt (rp - hd) pd /\ n_point t 1 = circle_pt (rp + ha) pa /\
      (forall u, 0 <= u <= 1 -> (exists x, td <= x <= 0 /\ n_point t u = lower_pt rp rin pia x) \/ (exists x, 0 <= x <= ta /\ n_point t u = upper_pt rp rout pia x)) /\
      (forall u v, 0 <= u -> u < v -> v <= 1 -> rad2 (n_point t u) < rad2 (n_point t v)) /\ length (leaves t) = 2%nat.
  Proof.
    intros TOP n rc (x0 & x1 & SX & X & MX) RF. pose proof (cy_rd _ _ _ _ _ _ _ _ _ _ _ CS) as RD. pose proof (cy_ra _ _ _ _ _ _ _ _ _ _ _ CS) as RA.
    pose proof (cy_pitch _ _ _ _ _ _ _ _ _ _ _ CS) as PT. pose proof (cy_gap _ _ _ _ _ _ _ _ _ _ _ CS) as GAP. pose proof (cy_land _ _ _ _ _ _ _ _ _ _ _ CS) as LAND.
    pose proof order as (O1 & O2). pose proof TOP as (TOP1 & TOP2). set (T := s2t (cyc_upper rp rout pia) s) in *.
    destruct (tooth_facts s TOP) as (RN & W & LV & EN & E1 & L0 & L1 & U0 & U1 & UF & R0 & R1). fold n in RN, W, LV, EN. fold T in W, U1.
    destruct (C51_cylindrical rp ha hd ho br P ltac:(lra) ltac:(lra)) as (_ & (CA & _) & (CD & _) & _). fold rc in CA, CD.
    assert (PX : n_point n x0 = c_eval (rc_a rc) x1) by (unfold n_point, meets in *; rewrite MX; reflexivity).
    assert (QX : c_eval (rc_a rc) x1 = circle_pt (rp + ha) pa).
    { rewrite <- PX. apply (at_tip T); [exact TOP2|apply (rn_within rad2); [exact RN|exact W|lra]|]. rewrite PX, CA.
      change (V _ _ _) with (circle_pt (rp + ha) (2 * PI * x1)). apply rad2_circle. }
    assert (YX : vy (c_eval (rc_a rc) x1) < 0).
    { rewrite QX. unfold circle_pt. cbn [vy]. assert (0 < sin (- pa)) by (apply sin_gt_0; lra). rewrite sin_neg in *.
      assert (0 < (rp + ha) * - sin pa) by (apply Rmult_lt_0_compat; lra). lra. }
    destruct (tip_leaves s TOP x0 X (eq_trans PX QX)) as (n1 & uc & EN1 & RN1 & W1 & T1 & UC & LN1 & CE & _). fold n in EN1, T1. fold T in W1.
    assert (TT : trim_tip sv n (rc_a rc) 0 pitch = Ok n1).
    { unfold trim_tip. destruct (Rlt_dec 0 0); [lra|]. cbv zeta. rewrite SX. cbn [fst]. unfold meets in MX. rewrite MX. cbn [bind orb andb].
      unfold lt_b. destruct (Rlt_dec _ 0); [exact EN1|contradiction]. }
    destruct (RF n1 TT) as (y0 & y1 & SY & Y & MY).
    assert (PY : n_point n1 y0 = c_eval (rc_d rc) y1) by (unfold n_point, meets in *; rewrite MY; reflexivity).
    assert (QY : c_eval (rc_d rc) y1 = circle_pt (rp - hd) pd).
    { rewrite <- PY. apply (at_root T); [exact TOP2|apply (rn_within rad2); [exact RN1|exact W1|lra]|]. rewrite PY, CD.
      change (V _ _ _) with (circle_pt (rp - hd) (2 * PI * y1)). apply rad2_circle. }
    assert (NJ : forall k, In k (leaves n1) -> n_point n1 y0 <> c_eval k 1).
    { intros k IK E. assert (EK : c_eval k 1 = n_point n1 1 \/ c_eval k 1 = circle_pt rp (- pia)).
      { rewrite LN1 in IK. destruct IK as [<-|[<-|[]]]; [right; exact E1|left; exact CE]. }
      destruct EK as [EK|EK]; rewrite EK in E.
      - pose proof (rn_point rad2 n1 y0 1 RN1 ltac:(lra) ltac:(lra) ltac:(lra)) as Q. rewrite E in Q. lra.
      - rewrite PY, QY in E. apply (f_equal rad2) in E. rewrite !rad2_circle in E. lra. }
    destruct (rn_start rad2 _ n1 y0 RN1 W1 Y NJ) as (t & ET & RT & WT & TS & TE).
    assert (P0 : n_point t 0 = circle_pt (rp - hd) pd) by congruence.
    assert (P1 : n_point t 1 = circle_pt (rp + ha) pa) by congruence.
    assert (UPS : forall u v, 0 <= u -> u < v -> v <= 1 -> rad2 (n_point t u) < rad2 (n_point t v)) by (intros u v A B C; apply (rn_point rad2); assumption).
    assert (TR : trim_root sv n1 (rc_d rc) 0 pitch = Ok t).
    { unfold trim_root. destruct (Rlt_dec 0 0); [lra|]. cbv zeta. rewrite SY. unfold meets in MY. rewrite MY. cbn [bind].
      destruct (sv_meet sv MINDISTANCE n1 (rc_d rc) 0 _) as [[ok2 b0] b1]. rewrite ?MY. cbn [bind orb andb].
      assert (AT : - (pitch / 2) < arctan2 (vy (c_eval (rc_d rc) y1)) (vx (c_eval (rc_d rc) y1))).
      { rewrite QY. unfold circle_pt. cbn [vx vy]. rewrite arctan2_polar; lra. }
      unfold lt_b. destruct (Rlt_dec _ _) as [LL|LL]; [exact ET|]. exfalso. apply LL. lra. }
    exists t. split; [unfold trim_flank; rewrite TT; exact TR|]. split; [apply (rn_flank_ok rad2), RT|]. split; [|split; [|split; [|split; [exact P0|split; [exact P1|split; [|split; [exact UPS|exact (root_leaves s TOP n1 uc y0 t RN1 LN1 UC Y (eq_trans PY QY) ET)]]]]]]].
    - unfold not_opposite. rewrite P0, P1. unfold circle_pt. cbn [vx vy]. split.
      + assert (0 < (rp + ha) * cos pa) by (apply Rmult_lt_0_compat; [lra|apply cos_gt_0; lra]). lra.
      + assert (0 < (rp - hd) * cos (pd + pitch / 2)) by (apply Rmult_lt_0_compat; [lra|apply cos_gt_0; lra]). rewrite cos_plus in *. lra.
    - apply (rn_fresh rad2), RN.
    - exists [cyc_lower rp rin pia; set_end_on (cyc_upper rp rout pia) s]. split; [exact EN|]. constructor; [|constructor; [|constructor]]; intros (ps & ws & E); discriminate.
    - intros u U. apply (between T); [exact TOP2|apply (rn_within rad2); assumption|]. rewrite <- (rad2_circle (rp - hd) pd), <- P0, <- (rad2_circle (rp + ha) pa), <- P1. split.
      + destruct (Req_dec u 0) as [->|N]; [lra|]. left. apply UPS; lra.
      + destruct (Req_dec u 1) as [->|N]; [lra|]. left. apply UPS; lra.
  Qed.

  (** Answers of the searches for the tip circle and the root circle exist. *)
  Lemma cyc_cut_solvable s ho br : cyc_top rp rout pia ta s ->
    let n := cyc_tooth rp rin rout pia s in let rc := generate_reference_circles rp ha hd ho 0 br in
    exists sv, tip_found sv n (rc_a rc) pitch /\ (forall n1, trim_tip sv n (rc_a rc) 0 pitch = Ok n1 -> root_found sv n1 (rc_d rc) pitch).
  Proof.
    intros TOP n rc. pose proof (cy_rd _ _ _ _ _ _ _ _ _ _ _ CS) as RD. pose proof (cy_ra _ _ _ _ _ _ _ _ _ _ _ CS) as RA.
    pose proof (cy_land _ _ _ _ _ _ _ _ _ _ _ CS) as LAND. pose proof order as (O1 & O2). pose proof order' as (O1' & O2'). pose proof cs_pi as CP. pose proof PI_RGT_0 as PP.
    pose proof TOP as (TOP1 & TOP2). set (T := s2t (cyc_upper rp rout pia) s) in *.
    destruct (tooth_facts s TOP) as (RN & W & LV & EN & E1 & L0 & L1 & U0 & U1 & UF & R0 & R1). fold n in RN, W, LV, EN. fold T in W, U1.
    destruct (C51_cylindrical rp ha hd ho br P ltac:(lra) ltac:(lra)) as (_ & (CA & _) & (CD & _) & _). fold rc in CA, CD.
    set (lo := cyc_lower rp rin pia) in *. set (up := set_end_on (cyc_upper rp rout pia) s) in *.
    assert (ON : forall r a q, (forall y, c_eval q y = V (r * cos (2 * PI * y)) (r * sin (2 * PI * y)) 0) -> c_eval q (a / (2 * PI)) = circle_pt r a).
    { intros r a q H. rewrite H. replace (2 * PI * (a / (2 * PI))) with a by (field; lra). reflexivity. }
    destruct (rising_hit rad2 up ta R1 ltac:(rewrite U0, U1; lra)) as (u & U & EU).
    assert (U0' : 0 < u). { destruct (Req_dec u 0) as [E|]; [|lra]. destruct (rising_ends rad2 up R1) as (S0 & _). rewrite <- E, U0 in S0. lra. }
    destruct (leaf_place rad2 n [lo] up [] u RN LV U (or_intror U0')) as (x0 & X & XP & _ & PX). specialize (XP U0').
    assert (QX : n_point n x0 = circle_pt (rp + ha) pa).
    { rewrite PX. unfold c_eval. rewrite EU, UF. apply (cy_tip _ _ _ _ _ _ _ _ _ _ _ CS). }
    destruct (tip_leaves s TOP x0 ltac:(lra) QX) as (n1 & uc & EN1 & RN1 & W1 & T1 & UC & LN1 & CE & _). fold n in EN1, T1. fold lo up in LN1.
    destruct (rising_hit rad2 lo td R0 ltac:(rewrite L0, L1; lra)) as (w & W0 & EW).
    assert (W1' : w < 1). { destruct (Req_dec w 1) as [E|]; [|lra]. destruct (rising_ends rad2 lo R0) as (_ & S1). rewrite <- E, L1 in S1. lra. }
    destruct (leaf_place rad2 n1 [] lo [set_end_on up uc] w RN1 LN1 W0 (or_introl eq_refl)) as (y0 & Y & _ & YP & PY). specialize (YP W1').
    assert (QY : n_point n1 y0 = circle_pt (rp - hd) pd).
    { rewrite PY. unfold c_eval. rewrite EW. unfold lo at 1. rewrite lower_fun. apply (cy_root _ _ _ _ _ _ _ _ _ _ _ CS). }
    assert (YX : vy (circle_pt (rp + ha) pa) < 0).
    { unfold circle_pt. cbn [vy]. assert (0 < sin (- pa)) by (apply sin_gt_0; lra). rewrite sin_neg in *. assert (0 < (rp + ha) * - sin pa) by (apply Rmult_lt_0_compat; lra). lra. }
    clearbody lo up. set (a := (x0, pa / (2 * PI))). set (b := (y0, pd / (2 * PI))).
    assert (MX : meets n x0 (rc_a rc) (snd a)).
    { unfold meets. rewrite (leaves_wf n (rn_act _ _ RN) (rising_positive rad2 _ (rn_leaves _ _ RN))). f_equal. rewrite QX. symmetry. apply ON, CA. }
    assert (EA : c_eval (rc_a rc) (snd a) = circle_pt (rp + ha) pa) by apply (ON _ _ _ CA).
    exists (answers a b). split.
    - exists x0, (snd a). split; [|split; [lra|exact MX]]. unfold answers. cbn [sv_meet]. destruct (Req_EM_T _ _); [reflexivity|lra].
    - intros n1' TT. assert (n1' = n1).
      { revert TT. unfold trim_tip. destruct (Rlt_dec 0 0); [lra|]. cbv zeta. unfold answers at 1 2 3. cbn [sv_meet].
        destruct (Req_EM_T (9 / 10) (9 / 10)); [|lra]. cbn [fst]. change (fst a) with x0. unfold meets in MX. rewrite MX. cbn [bind orb andb].
        unfold lt_b. destruct (Rlt_dec _ 0) as [G|G]; [intros Q; rewrite EN1 in Q; apply Ok_inj in Q; symmetry; exact Q|].
        exfalso. apply G. rewrite EA. exact YX. }
      subst n1'. exists y0, (snd b). split; [|split; [lra|]].
      + unfold answers. cbn [sv_meet]. destruct (Req_EM_T _ _); [lra|reflexivity].
      + unfold meets. rewrite (leaves_wf n1 (rn_act _ _ RN1) (rising_positive rad2 _ (rn_leaves _ _ RN1))). f_equal. rewrite QY. symmetry. apply ON, CD.
  Qed.
End Shape.

(** ** The sections of a gear *)
(** What the constructor of cylindrical cycloid gears fills in. *)
Record cyc_gear (g : cgear) (n : Z) : Prop := {
  yg_n : (0 < n)%Z;
  yg_teeth : cp_teeth (cg_in g) = IZR n; yg_cone : k_cone (cg_core g) = 0; yg_gamma : k_gamma (cg_core g) = 0;
  yg_rp : k_rp (cg_core g) = IZR n / 2;
  yg_num : num_teeth (k_tooth (cg_core g)) = IZR n; yg_cut : num_cutout (k_tooth (cg_core g)) = 0 }.
Lemma yg_act g n : cyc_gear g n -> num_teeth_act (k_tooth (cg_core g)) = n.
Proof. intros H. unfold num_teeth_act. rewrite (yg_num _ _ H), (yg_cut _ _ H), Rminus_0_r. apply floorZ_IZR. Qed.

Lemma cyc_new_gear p n : cp_teeth p = IZR n -> cp_cone p = 0 -> (0 < n)%Z -> cyc_gear (cyc_new p) n.
Proof.
  intros T C N. assert (P : 0 < IZR n) by (apply IZR_lt; exact N).
  assert (TP : forall i, tp_make (IZR n) 0 i = mkTP (IZR n) 0 i) by (intros i; apply tp_make_pos; lra).
  split; [exact N|exact T|exact C| | | | ]; unfold cyc_new, cyc_calc; cbn -[tp_make]; rewrite ?T, ?TP, ?C; try reflexivity; field.
Qed.

(** The flank [t] of the gear's profile at the height [z], and the circles it was trimmed with. *)
Record cyc_flank (sv : solver) (fs : fsolver) (top : curve -> R) (g : cgear) (z : R) (rc : ref_circles) (t : node) : Prop := {
  yf_ok : flank_ok t;
  yf_ends : not_opposite t (2 * PI / cp_teeth (cg_in g));
  yf_made : exists f, let k := cg_core g in let p := cg_in g in let tooth := cg_tooth top g z in
    rc = reduced_circles fs tooth (generate_reference_circles (k_rp k) (k_ha k) (k_hd k) (k_ho k) (k_cone k) (k_rp k)) (cp_tip_trunc p) (k_cone k) (k_rp k) /\
    filleted_flank fs tooth rc (cp_tip_fillet p) (cp_root_fillet p) (2 * PI / cp_teeth p) = Ok f /\
    List.Forall fresh (leaves f) /\
    trim_flank sv f rc (cp_tip_fillet p) (cp_root_fillet p) (2 * PI / cp_teeth p) = Ok t }.

Lemma cyc_section_made sv fs top mid g n z rc t : cyc_gear g n -> cyc_flank sv fs top g z rc t -> plain_flank t ->
  / 10000000000 < root_gap t (2 * PI / IZR n) -> / 10000000000 < tip_gap t ->
  exists cp, cg_section sv fs top mid g z = Ok cp /\ regular_section cp ((k_slice (cg_core g)) z) (2 * PI / IZR n) /\
    outline_start cp = turn (- (2 * PI / IZR n)) (flip (n_point t 0)) /\
    (let a := turn (- (2 * PI / IZR n)) (flip (n_point t 0)) in let b := n_point t 0 in cp_rd cp = CPlain (from_2_point_center a b (axis_center a b) 0 true)) /\
    (let a := n_point t 1 in let b := flip (n_point t 1) in cp_ra cp = CPlain (from_2_point_center a b (axis_center a b) 0 true)) /\
    cp_tooth cp = map CPlain (get_curves t).
Proof.
  intros CG [FO NO (f & ERC & EF & FR & TR)] FT RG TG. cbv zeta in *. rewrite (yg_teeth _ _ CG) in *.
  set (pitch := 2 * PI / IZR n) in *.
  pose proof (trim_leaves_fresh _ _ _ _ _ _ _ FR TR) as FL. destruct (assemble_ok t rc pitch FO FL NO) as (p0 & EP & AS).
  unfold cg_section, cg_profile. unfold generate_reference_profile. rewrite <- ERC, (yg_teeth _ _ CG). fold pitch. rewrite EF. cbn [bind].
  unfold trim_reference_profile. rewrite TR. cbn [bind]. rewrite EP. cbn [bind]. rewrite (yg_cone _ _ CG).
  set (p := mkPr _ _ _ _ _ _ _). assert (AS' : assembled t pitch p) by (destruct AS; split; assumption).
  assert (EX : exists e, generate_profile_extensions p 0 (c_center (k_recipe_cone (cg_core g))) (mid p) = Ok e).
  { destruct (start_exists t pitch p FO FL NO AS') as (a & EA & _). unfold generate_profile_extensions.
    rewrite EA, (as_tooth _ _ _ AS'), (leaves_wf t (fo_act t FO) (fo_pos t FO)). cbn [bind]. eexists. reflexivity. }
  destruct EX as (e & EE). rewrite EE. cbn [bind]. exists (cv_of_ext e). split; [reflexivity|].
  destruct (bridge t pitch p FO FL NO AS' FT RG TG 0 (c_center (k_recipe_cone (cg_core g))) (mid p) e ((k_slice (cg_core g)) z) (or_introl eq_refl) (or_introl eq_refl) EE) as (RS & OS & _).
  - reflexivity.
  - unfold k_slice. cbn. ring.
  - unfold k_slice. cbn. ring.
  - assert (EB : ex_base e = p).
    { unfold generate_profile_extensions in EE. destruct (n_eval (pr_tooth p) 0) as [x|]; cbn [bind] in EE; [|discriminate].
      destruct (n_eval (pr_chain p) 0) as [y|]; cbn [bind] in EE; [|discriminate]. apply Ok_inj in EE. rewrite <- EE. reflexivity. }
    split; [exact RS|]. split; [exact OS|]. unfold cv_of_ext. rewrite EB. cbn [cp_rd cp_ra cp_tooth].
    destruct (as_rd _ _ _ AS') as (r & y & ->). destruct (as_ra _ _ _ AS') as (r' & y' & ->). rewrite (as_tooth _ _ _ AS').
    cbv zeta. rewrite !closing_active; [auto|exact TG|exact RG].
Qed.

(** A section with teeth, see [toothed] of PartProps.v. *)
Record cyc_toothed (sv : solver) (fs : fsolver) (top : curve -> R) (g : cgear) (n : Z) (z : R) (t : node) : Prop := {
  yt_flank : exists rc, cyc_flank sv fs top g z rc t;
  yt_flat : plain_flank t;
  yt_root : / 10000000000 < root_gap t (2 * PI / IZR n);
  yt_tip : / 10000000000 < tip_gap t;
  yt_apart : DELTA / 100 <= 2 * axis_dist (n_point t 0) * sin (PI / IZR n) }.

Section Closed.
  Variables (sv : solver) (fs : fsolver) (top : curve -> R) (mid : profile -> R).
  Variables (g : cgear) (n : Z) (nv : nat).
  Hypothesis CG : cyc_gear g n.
  Let zs := k_zvals (cg_core g).
  Let heights := concat (z_stacks zs (n_z_tweens nv 3)).
  Hypothesis TD : forall z, In z heights -> exists t, cyc_toothed sv fs top g n z t.
  Let prof := cg_section_at sv fs top mid g.
  Let trf := (k_slice (cg_core g)).
  Let pitch := 2 * PI / IZR n.

  Lemma cyc_section_known z : In z heights -> cg_section sv fs top mid g z = Ok (prof z) /\ regular_section (prof z) (trf z) pitch /\
    DELTA / 100 <= norm (vsub (place trf z (outline_start (prof z))) (mapp (rotz pitch) (place trf z (outline_start (prof z))))).
  Proof.
    intros I. destruct (TD z I) as (t & [(rc & FL) FT RG TG AP]).
    destruct (cyc_section_made sv fs top mid g n z rc t CG FL FT RG TG) as (cp & E & RS & OS & _).
    assert (PE : prof z = cp) by (unfold prof, cg_section_at; rewrite E; reflexivity). rewrite PE. split; [exact E|]. split; [exact RS|].
    destruct RS as (_ & _ & _ & _ & _ & TO & TX & TY).
    change (g_orient (trf z) = UNIT3X3) in TO. change (vx (g_center (trf z)) = 0) in TX. change (vy (g_center (trf z)) = 0) in TY. unfold place. rewrite <- (place_spin (trf z) pitch) by assumption.
    set (q := outline_start cp) in *. rewrite !apply_gear_transform_eq. rewrite TO, !mapp_I.
    assert (N1 : 1 <= IZR n) by (apply IZR_le; pose proof (yg_n _ _ CG); lia). pose proof PI_RGT_0.
    assert (SC : g_scale (trf z) = 1).
    { unfold trf, k_slice. cbn [g_scale k_slice]. rewrite (yg_gamma _ _ CG), sin_0, (yg_num _ _ CG). field. lra. }
    rewrite SC. set (r := rotz (g_angle (trf z))).
    assert (ED : norm (vsub (vadd (smul 1 (mapp r q)) (g_center (trf z))) (vadd (smul 1 (mapp r (mapp (rotz pitch) q))) (g_center (trf z)))) =
      norm (vsub (mapp r q) (mapp (rotz pitch) (mapp r q)))).
    { f_equal. unfold r. rewrite <- (mapp_mmul (rotz pitch)), rotz_comm, mapp_mmul. apply vec_eq; cbn; ring. }
    eapply Rle_trans; [|apply Req_le; symmetry; exact ED].
    assert (HP : pitch / 2 = PI / IZR n) by (unfold pitch; field; lra).
    rewrite chord_len, HP.
    - unfold r. rewrite <- turn_rotz, axis_dist_turn, OS, axis_dist_turn, axis_dist_flip. exact AP.
    - rewrite HP. split; [apply Rlt_le, Rdiv_lt_0_compat; lra|]. apply (Rmult_le_reg_r (IZR n)); [lra|]. unfold Rdiv. rewrite Rmult_assoc, Rinv_l, Rmult_1_r by lra. nra.
  Qed.
End Closed.

(** Building a cylindrical gear, with any number of layers, gives faces that close: every edge belongs to exactly two of them. *)
Theorem C123_closed sv fs top mid optC optS g n nhz nv K :
  cyc_gear g n -> (2 <= nhz)%nat -> (2 <= nv)%nat ->
  let zs := k_zvals (cg_core g) in let tw := n_z_tweens nv 3 in
  let prof := cg_section_at sv fs top mid g in let trf := (k_slice (cg_core g)) in
  (2 <= length zs)%nat ->
  (forall z, In z (concat (z_stacks zs tw)) -> (exists t, cyc_toothed sv fs top g n z t) /\
     (forall c, section_chain optC nhz 3 prof trf z = Ok c -> nb_knots c = K)) ->
  tw = 2%nat \/ (forall hs, In hs (z_stacks zs tw) -> let tg := stack_target (map (chain_at optC nhz 3 prof trf) hs) in
     converged tg tw (S (last K 0%nat)) nv (optS tg)) ->
  exists c, cg_build sv fs top mid optC optS g nhz nv = Ok c /\ paired (all_edges c) /\
    length (cy_sides c) = (Z.to_nat n * ((length zs - 1) * (length K - 4)))%nat.
Proof.
  intros CG Hz Hv zs tw prof trf LZ HS HC.
  assert (SK := cyc_section_known sv fs top mid g n nv CG (fun z I => proj1 (HS z I))). cbv zeta in SK. fold prof trf zs tw in SK.
  assert (N1 : 1 <= IZR n) by (apply IZR_le; pose proof (yg_n _ _ CG); lia).
  unfold cg_build. fold zs. fold tw. rewrite (res_map_ok _ (map prof)).
  2:{ intros l I. apply res_map_ok. intros z IZ. apply SK. apply in_concat. exists l. auto. }
  cbn [bind]. rewrite (yg_act _ _ CG), (yg_num _ _ CG). unfold tp_pitch_angle. rewrite (yg_num _ _ CG).
  assert (T2 : (2 <= tw)%nat) by (apply tweens_ge; [exact Hv|lra]).
  apply C115_closed; try assumption.
  - lra.
  - apply (yg_n _ _ CG).
  - reflexivity.
  - intros z I. split; [apply SK, I|]. apply HS, I.
  - destruct HC as [HC|HC]; [left; exact HC|right]. split; [apply tweens_many, Hv|exact HC].
  - intros z E. right. apply SK. apply in_concat. destruct E as [->| ->].
    + exists (linspace (nth 0 zs 0) (nth 1 zs 0) tw). split.
      * unfold z_stacks. apply in_map_iff. exists 0%nat. split; [reflexivity|]. apply in_seq. lia.
      * replace (hd 0 zs) with (nth 0 zs 0) by (destruct zs; reflexivity). rewrite <- (linspace_hd (nth 0 zs 0) (nth 1 zs 0) tw) at 1 by lia.
        assert (L : linspace (nth 0 zs 0) (nth 1 zs 0) tw <> []) by (destruct tw as [|[|]]; [lia|lia|discriminate]).
        destruct (linspace _ _ tw); [contradiction|left; reflexivity].
    + exists (linspace (nth (length zs - 2) zs 0) (nth (S (length zs - 2)) zs 0) tw). split.
      * unfold z_stacks. apply in_map_iff. exists (length zs - 2)%nat. split; [reflexivity|]. apply in_seq. lia.
      * replace (last zs 0) with (nth (S (length zs - 2)) zs 0) by (apply last_nth'; lia).
        rewrite <- (linspace_last (nth (length zs - 2) zs 0) (nth (S (length zs - 2)) zs 0) tw) at 1 by lia.
        assert (L : linspace (nth (length zs - 2) zs 0) (nth (S (length zs - 2)) zs 0) tw <> []) by (destruct tw as [|[|]]; [lia|lia|discriminate]).
        clear - L. revert L. generalize (linspace (nth (length zs - 2) zs 0) (nth (S (length zs - 2)) zs 0) tw). intros l NE.
        rewrite (app_removelast_last 0 NE) at 2. apply in_or_app. right. left. reflexivity.
  - intros _ z _. unfold trf, k_slice. cbn. rewrite (yg_gamma _ _ CG), cos_0. ring.
Qed.

(** ** Gears without crowning *)
Lemma cyc_tooth_const top g z z' : cp_crown (cg_in g) = 0 -> cg_tooth top g z = cg_tooth top g z'.
Proof. intros H. unfold cg_tooth. replace (cg_pia g z) with (cg_pia g z') by (unfold cg_pia, crowning; rewrite H; unfold Rdiv; ring). reflexivity. Qed.
Lemma cyc_toothed_const sv fs top g n z z' t : cp_crown (cg_in g) = 0 -> cyc_toothed sv fs top g n z t -> cyc_toothed sv fs top g n z' t.
Proof.
  intros H [(rc & [A B (f & D)]) FT RG TG AP]. split; try assumption. exists rc. split; [exact A|exact B|].
  exists f. cbv zeta in *. rewrite (cyc_tooth_const top g z' z H). exact D.
Qed.
Lemma cyc_section_const sv fs top mid g z z' cp : cp_crown (cg_in g) = 0 ->
  cg_section sv fs top mid g z = Ok cp -> cg_section sv fs top mid g z' = Ok cp.
Proof.
  intros H. unfold cg_section, cg_profile. rewrite (cyc_tooth_const top _ z' z H).
  unfold generate_reference_profile. destruct (filleted_flank _ _ _ _ _ _) as [f|]; cbn [bind]; [|discriminate].
  destruct (trim_reference_profile _ _ _ _ _ _) as [p|]; cbn [bind]; [|discriminate].
  unfold generate_profile_extensions. unfold pr_chain. cbn [pr_tooth pr_mirror pr_rd pr_ra pr_ro pr_pitch].
  destruct (n_eval (pr_tooth p) 0) as [a|]; cbn [bind]; [|discriminate]. destruct (n_eval _ 0) as [b|]; cbn [bind]; [|discriminate].
  intros E. apply Ok_inj in E. rewrite <- E. reflexivity.
Qed.

Section Uncrowned.
  Variables (sv : solver) (fs : fsolver) (top : curve -> R) (mid : profile -> R) (optC : curve -> arr2 -> arr1) (optS : arr3 -> arr1).
  Variables (g : cgear) (pitch : R) (nhz : nat).
  Hypothesis Hz : (2 <= nhz)%nat.
  Hypothesis CR : cp_crown (cg_in g) = 0.
  Hypothesis SM : exists cp, cg_section sv fs top mid g 0 = Ok cp /\ regular_section cp ((k_slice (cg_core g)) 0) pitch.
  Let prof := cg_section_at sv fs top mid g.
  Let trf := (k_slice (cg_core g)).

  Lemma cyc_section_all z : prof z = prof 0 /\ cg_section sv fs top mid g z = Ok (prof 0) /\ regular_section (prof 0) (trf z) pitch.
  Proof.
    destruct SM as (cp & E & RS).
    assert (P0 : prof 0 = cp) by (unfold prof, cg_section_at; rewrite E; reflexivity). pose proof (cyc_section_const _ _ _ _ _ _ z _ CR E) as EZ.
    split; [rewrite P0; unfold prof, cg_section_at; rewrite EZ; reflexivity|]. rewrite P0. split; [exact EZ|].
    destruct RS as (A1 & A2 & A3 & A4 & A5 & _). repeat (split; [assumption|]). unfold trf, k_slice. cbn. repeat split; ring.
  Qed.

  Definition carries (m : list vec * list R) (s : vec * vec) : Prop :=
    hd ORIGIN (fst m) = fst s /\ last (fst m) ORIGIN = snd s /\ hd 0 (snd m) = 1 /\ last (snd m) 0 = 1.
  Lemma cyc_base_route : exists b, chain_ok b /\ joints b /\ length (nb_knots b) = (tooth_legs (prof 0) + 4)%nat /\
    (forall z, section_chain optC nhz 3 prof trf z = Ok (map (moved (place trf z)) b)) /\ Forall2 carries b (route (prof 0)).
  Proof.
    destruct (cyc_section_all 0) as (_ & _ & RS). destruct RS as (CV & EX & CN & RA & _).
    destruct (C57_profile_joined optC nhz 3 (fun q => q) (prof 0) Hz ltac:(lra) CV EX CN) as (l & EL & OK & JT & FL).
    exists (surface_members l). split; [exact OK|]. split; [exact JT|]. split.
    - pose proof (proj2 (C59_kept_iff optC nhz 3 (fun q => q) (prof 0) l Hz ltac:(lra) CV EX CN EL) RA) as LK.
      assert (KL : forall c k, length (knots_from k c) = S (length c)) by (induction c as [|x c IH]; intros k; cbn; [reflexivity|rewrite IH; reflexivity]).
      unfold nb_knots. rewrite KL.
      assert (1 <= tooth_legs (prof 0))%nat.
      { assert (FE : forall m, existsb (fun i => c_act (cv_curve i)) m = true -> (1 <= length (filter (fun i => c_act (cv_curve i)) m))%nat).
        { clear. induction m as [|x m IH]; cbn [existsb filter]; [discriminate|]. destruct (c_act (cv_curve x)); cbn [length orb]; [lia|exact IH]. }
        apply FE in EX. unfold tooth_legs. cbn [filter]. rewrite filter_app. destruct (c_act _); cbn [length]; rewrite app_length; lia. }
      lia.
    - split; [intros z; unfold section_chain, closed_members; destruct (cyc_section_all z) as (-> & _); rewrite closed_map, EL; cbn [bind]; rewrite members_map; reflexivity|].
      unfold surface_members. clear - FL. revert FL. generalize (filter nc_active l). intros a F.
      remember (map (image (fun q => q)) (route (prof 0))) as r eqn:E. revert E. generalize (route (prof 0)). induction F as [|c s a r H F IH]; intros [|s' r'] E; try discriminate; [constructor|].
      cbn [map] in *. injection E as -> E. constructor; [|apply IH, E]. destruct H as (_ & _ & H). exact H.
  Qed.
  Lemma cyc_base_chain : exists b, chain_ok b /\ joints b /\ length (nb_knots b) = (tooth_legs (prof 0) + 4)%nat /\
    forall z, section_chain optC nhz 3 prof trf z = Ok (map (moved (place trf z)) b).
  Proof. destruct cyc_base_route as (b & A & B & C & D & _). exists b. auto. Qed.
End Uncrowned.
Lemma cyc_toothed_section sv fs top mid g n t : cyc_gear g n -> cyc_toothed sv fs top g n 0 t ->
  exists cp, cg_section sv fs top mid g 0 = Ok cp /\ regular_section cp ((k_slice (cg_core g)) 0) (2 * PI / IZR n).
Proof.
  intros CG [(rc & FL) FT RG TG _]. destruct (cyc_section_made sv fs top mid g n 0 rc t CG FL FT RG TG) as (cp & E & RS & _). exists cp. auto.
Qed.

Section Body.
  Variables (sv : solver) (fs : fsolver) (top : curve -> R) (mid : profile -> R) (optC : curve -> arr2 -> arr1) (optS : arr3 -> arr1).
  Variables (g : cgear) (n : Z) (nhz nv : nat) (t : node).
  Hypothesis CG : cyc_gear g n.
  Hypothesis Hz : (2 <= nhz)%nat.
  Hypothesis Hv : (2 <= nv)%nat.
  Hypothesis CR : cp_crown (cg_in g) = 0.
  Hypothesis TD : cyc_toothed sv fs top g n 0 t.
  Let prof := cg_section_at sv fs top mid g.
  Let trf := (k_slice (cg_core g)).
  Let zs := k_zvals (cg_core g).
  Let tw := n_z_tweens nv 3.
  Hypothesis LZ : (2 <= length zs)%nat.

  Lemma cyc_uncrowned : tw = 2%nat \/ (forall hs, In hs (z_stacks zs tw) -> let st := map (chain_at optC nhz 3 prof trf) hs in
      converged (stack_target st) tw (length (nb_points (chain_at optC nhz 3 prof trf 0))) nv (optS (stack_target st))) ->
    exists c, cg_build sv fs top mid optC optS g nhz nv = Ok c /\ paired (all_edges c) /\
      length (cy_sides c) = (Z.to_nat n * ((length zs - 1) * tooth_legs (prof 0)))%nat.
  Proof.
    intros HC. destruct (cyc_base_chain sv fs top mid optC g (2 * PI / IZR n) nhz Hz CR (cyc_toothed_section _ _ _ _ _ _ _ CG TD)) as (b & OK & JT & LK & SC). fold prof trf in SC, LK.
    assert (KN : forall z, nb_knots (map (moved (place trf z)) b) = nb_knots b) by (intros z; apply knots_moved).
    assert (LN : S (last (nb_knots b) 0%nat) = length (nb_points (chain_at optC nhz 3 prof trf 0))).
    { unfold chain_at. rewrite SC, points_moved, map_length by exact OK.
      destruct (C40_knots b OK) as (r & ER & LR & AR). destruct (weights_length b OK) as [_ L1].
      rewrite ER. rewrite <- (ascending_last r 0 _ AR). lia. }
    destruct (C123_closed sv fs top mid optC optS g n nhz nv (nb_knots b) CG Hz Hv LZ) as (c & EB & PA & LC).
    - intros z _. split; [exists t; apply (cyc_toothed_const _ _ _ _ _ 0); assumption|].
      intros c E. fold prof trf in E. rewrite SC in E. apply Ok_inj in E. rewrite <- E. apply KN.
    - fold zs tw prof trf. destruct HC as [HC|HC]; [left; exact HC|right]. intros hs I. rewrite LN. apply HC, I.
    - exists c. split; [exact EB|]. split; [exact PA|]. rewrite LC, LK. fold zs. f_equal. f_equal. lia.
  Qed.
End Body.

(** A gear without crowning, helical or not, built with any number of layers. *)
Theorem C123_uncrowned sv fs top mid optC optS g n nhz nv t :
  cyc_gear g n -> (2 <= nhz)%nat -> (2 <= nv)%nat -> cp_crown (cg_in g) = 0 ->
  cyc_toothed sv fs top g n 0 t ->
  let zs := k_zvals (cg_core g) in let tw := n_z_tweens nv 3 in
  let prof := cg_section_at sv fs top mid g in let trf := (k_slice (cg_core g)) in
  (2 <= length zs)%nat ->
  tw = 2%nat \/ (forall hs, In hs (z_stacks zs tw) -> let st := map (chain_at optC nhz 3 prof trf) hs in
    converged (stack_target st) tw (length (nb_points (chain_at optC nhz 3 prof trf 0))) nv (optS (stack_target st))) ->
  exists c, cg_build sv fs top mid optC optS g nhz nv = Ok c /\ paired (all_edges c) /\
    length (cy_sides c) = (Z.to_nat n * ((length zs - 1) * (2 * (1 + length (leaves t)))))%nat.
Proof.
  intros CG Hz Hv CR TD zs tw prof trf LZ HC.
  destruct (cyc_uncrowned sv fs top mid optC optS g n nhz nv t CG Hz Hv CR TD LZ HC) as (c & EB & PA & LC).
  exists c. split; [exact EB|]. split; [exact PA|]. rewrite LC. fold zs. do 2 f_equal.
  destruct TD as [(rc & FL) FT RG TG _]. destruct (cyc_section_made sv fs top mid g n 0 rc t CG FL FT RG TG) as (cp & E & _ & _ & RD & RA & TO).
  assert (P0 : cg_section_at sv fs top mid g 0 = cp) by (unfold cg_section_at; rewrite E; reflexivity). rewrite P0. cbv zeta in RD, RA.
  unfold tooth_legs. rewrite RD, RA, TO. rewrite (proj1 FT). set (cs := get_curves t).
  assert (AC : forall a b, c_act (from_2_point_center a b (axis_center a b) 0 true) = true).
  { intros a b. unfold from_2_point_center, arc_from_frame. destruct (as_euler_zyx _) as [[? ?] ?]. reflexivity. }
  assert (FM : length (filter (fun i => c_act (cv_curve i)) (map CPlain cs)) = length (filter c_act cs)).
  { clear. induction cs as [|x cs IH]; [reflexivity|]. cbn [map filter cv_curve]. destruct (c_act x); cbn [length]; rewrite IH; reflexivity. }
  cbn [filter cv_curve]. rewrite filter_app. cbn [filter cv_curve]. rewrite !AC. cbn [length]. rewrite app_length. cbn [length]. rewrite FM. lia.
Qed.


(** ** The part *)
(** A tooth without fillets, whose flank does not reach the symmetry plane of the tooth within the tip truncation of the tip circle, and what its
    profile at the height [z] asks of the searches. *)
Record cyc_plain (sv : solver) (fs : fsolver) (top : curve -> R) (g : cgear) (n : Z) (z td pd ta pa : R) : Prop := {
  yp_tipf : cp_tip_fillet (cg_in g) = 0; yp_rootf : cp_root_fillet (cg_in g) = 0;
  yp_shape : cyc_shape (IZR n / 2) (cg_rin g) (cg_rout g) (cg_pia g z) (k_ha (cg_core g)) (k_hd (cg_core g)) (2 * PI / IZR n) td pd ta pa;
  yp_top : cyc_top (IZR n / 2) (cg_rout g) (cg_pia g z) ta (top (cyc_upper (IZR n / 2) (cg_rout g) (cg_pia g z)));
  yp_cut : let rc := generate_reference_circles (IZR n / 2) (k_ha (cg_core g)) (k_hd (cg_core g)) (k_ho (cg_core g)) 0 (IZR n / 2) in
    tip_found sv (cg_tooth top g z) (rc_a rc) (2 * PI / IZR n) /\
    (forall n1, trim_tip sv (cg_tooth top g z) (rc_a rc) 0 (2 * PI / IZR n) = Ok n1 -> root_found sv n1 (rc_d rc) (2 * PI / IZR n));
  yp_trunc : 0 < cp_tip_trunc (cg_in g) -> plane_sound fs (cg_tooth top g z) /\
    (forall x, td <= x <= 0 -> vy (lower_pt (IZR n / 2) (cg_rin g) (cg_pia g z) x) < 0) /\
    (forall x, 0 <= x <= cg_rout g * PI -> rad2 (upper_pt (IZR n / 2) (cg_rout g) (cg_pia g z) x) <
         (IZR n / 2 + k_ha (cg_core g) + cp_tip_trunc (cg_in g)) * (IZR n / 2 + k_ha (cg_core g) + cp_tip_trunc (cg_in g)) ->
       vy (upper_pt (IZR n / 2) (cg_rout g) (cg_pia g z) x) < 0) }.

(** The profile of such a gear: the flank runs from the root circle to the tip circle, along the inner cycloid up to the pitch circle and
    along the outer one from there, and away from the axis. *)
Theorem C123_teeth sv fs top g n z td pd ta pa : cyc_gear g n -> cyc_plain sv fs top g n z td pd ta pa ->
  let k := cg_core g in let rp := IZR n / 2 in let pitch := 2 * PI / IZR n in
  / 10000000000 < 2 * (rp + k_ha k) * sin (- pa) -> / 10000000000 < 2 * (rp - k_hd k) * sin (pitch / 2 + pd) ->
  DELTA / 100 <= 2 * (rp - k_hd k) * sin (PI / IZR n) ->
  exists t, cyc_toothed sv fs top g n z t /\ n_point t 0 = circle_pt (rp - k_hd k) pd /\ n_point t 1 = circle_pt (rp + k_ha k) pa /\
    (forall u, 0 <= u <= 1 -> (exists x, td <= x <= 0 /\ n_point t u = lower_pt rp (cg_rin g) (cg_pia g z) x) \/
       (exists x, 0 <= x <= ta /\ n_point t u = upper_pt rp (cg_rout g) (cg_pia g z) x)) /\
    (forall u v, 0 <= u -> u < v -> v <= 1 -> rad2 (n_point t u) < rad2 (n_point t v)) /\ length (leaves t) = 2%nat.
Proof.
  intros CG [TF RF CS TP (CT & CRT) TR] k rp pitch TW RW AP. fold rp k in CS, TP, CT, CRT, TR. fold pitch in CS, CT, CRT.
  assert (TE : cg_tooth top g z = cyc_tooth rp (cg_rin g) (cg_rout g) (cg_pia g z) (top (cyc_upper rp (cg_rout g) (cg_pia g z)))).
  { unfold cg_tooth. rewrite (yg_rp _ _ CG). reflexivity. }
  rewrite TE in CT, CRT, TR. set (s := top (cyc_upper rp (cg_rout g) (cg_pia g z))) in *.
  destruct (cyc_flank_made _ _ _ _ _ _ _ _ _ _ _ CS sv s (k_ho k) rp TP CT CRT) as (t & ET & FO & NO & FR & FT & P0 & P1 & PTS & UPS & LN).
  destruct (tooth_facts _ _ _ _ _ _ _ _ _ _ _ CS s TP) as (RN & W & _).
  exists t. split; [|split; [exact P0|split; [exact P1|split; [exact PTS|split; [exact UPS|exact LN]]]]].
  assert (RD : 0 < rp - k_hd k) by apply (cy_rd _ _ _ _ _ _ _ _ _ _ _ CS). assert (RA : 0 < rp + k_ha k) by apply (cy_ra _ _ _ _ _ _ _ _ _ _ _ CS).
  assert (PP : 0 < rp) by apply (cy_rp _ _ _ _ _ _ _ _ _ _ _ CS).
  split.
  - exists (generate_reference_circles rp (k_ha k) (k_hd k) (k_ho k) 0 rp). split; [exact FO|rewrite (yg_teeth _ _ CG); exact NO|].
    exists (cg_tooth top g z). cbv zeta. fold k. rewrite TE, (yg_teeth _ _ CG), TF, RF. fold pitch. split; [|split; [|split; [exact FR|exact ET]]].
    + replace (k_cone k) with 0 by (symmetry; apply (yg_cone _ _ CG)). replace (k_rp k) with rp by (symmetry; apply (yg_rp _ _ CG)). symmetry.
      destruct (Rlt_le_dec 0 (cp_tip_trunc (cg_in g))) as [R0|R0]; [|apply C90_off, R0].
      destruct (TR R0) as (SO & VL & VU). apply tip_kept; try assumption. intros r (gg & x & _ & EX & ER & RR). change (V 0 1 0) with UP in EX. destruct (SO gg x EX) as (X & Y).
      pose proof (rn_within rad2 _ _ x RN W X) as Q. set (p := n_point (cyc_tooth rp (cg_rin g) (cg_rout g) (cg_pia g z) s) x) in *. rewrite radius_of in ER.
      destruct TP as (TP1 & TP2). destruct Q as [(w & W0 & E)|(w & W0 & E)]; rewrite E in Y, ER.
      * exfalso. destruct (Rlt_dec w td) as [G|G]; [|specialize (VL w ltac:(lra)); lra].
        destruct (lower_rank _ _ _ _ _ _ _ _ _ _ _ CS w W0) as (A & _). specialize (A G). apply Rlt_le, sqrt_le_1_alt in A. rewrite sqrt_square in A by lra. lra.
      * destruct (Rlt_dec (rad2 (upper_pt rp (cg_rout g) (cg_pia g z) w)) ((rp + k_ha k + cp_tip_trunc (cg_in g)) * (rp + k_ha k + cp_tip_trunc (cg_in g)))) as [G|G].
        -- exfalso. specialize (VU w ltac:(lra) G). lra.
        -- rewrite ER. rewrite <- (sqrt_square (rp + k_ha k + cp_tip_trunc (cg_in g))) by lra. apply sqrt_le_1_alt. lra.
    + unfold filleted_flank. destruct (Rlt_dec 0 0); [lra|reflexivity].
  - apply flat_plain. exact (flat_trim _ _ _ _ _ _ _ FT ET).
  - unfold root_gap. rewrite P0. eapply Rlt_le_trans; [exact RW|]. apply gap_width.
  - unfold tip_gap. rewrite P1. eapply Rlt_le_trans; [exact TW|]. apply land_width.
  - rewrite P0. replace (axis_dist (circle_pt (rp - k_hd k) _)) with (rp - k_hd k); [exact AP|].
    unfold axis_dist. change (rp - k_hd k = sqrt (rad2 (circle_pt (rp - k_hd k) pd))). rewrite rad2_circle, sqrt_square; lra.
Qed.

(** The fits of the part's surfaces have converged (see C115). *)
Definition cyc_fits sv fs top mid optC (optS : arr3 -> arr1) (g : cgear) : Prop :=
  let nv := cg_layers g in let tw := n_z_tweens nv 3 in
  let chains := chain_at optC 4 3 (cg_section_at sv fs top mid g) (k_slice (cg_core g)) in
  forall hs, In hs (z_stacks (k_zvals (cg_core g)) tw) -> let st := map chains hs in
    converged (stack_target st) tw (length (nb_points (chains 0))) nv (optS (stack_target st)).
Lemma cyc_layers_ge g : (2 <= cg_layers g)%nat.
Proof. unfold cg_layers, n_vert_cycloid. repeat match goal with |- context [if ?b then _ else _] => destruct b end; lia. Qed.
Lemma cyc_two_layers g : cp_crown (cg_in g) = 0 -> cp_helix (cg_in g) = 0 -> cp_cone (cg_in g) = 0 -> n_z_tweens (cg_layers g) 3 = 2%nat.
Proof.
  intros C H K. unfold cg_layers, n_vert_cycloid. rewrite C, H, K. destruct (Req_EM_T 0 0); [|contradiction].
  unfold n_z_tweens. replace ((INR 2 - 2) * 3) with (IZR 0) by (cbn; ring). unfold ceilZ. rewrite <- opp_IZR, floorZ_IZR. reflexivity.
Qed.

(** build_part() of a cylindrical cycloid gear without crowning, with straight or helical teeth, succeeds and the skin of the part is closed. *)
Theorem C123_part sv fs top mid optC optS g n td pd ta pa : cyc_gear g n -> cp_crown (cg_in g) = 0 -> (2 <= length (k_zvals (cg_core g)))%nat ->
  cyc_plain sv fs top g n 0 td pd ta pa -> (cp_helix (cg_in g) = 0 /\ cp_cone (cg_in g) = 0) \/ cyc_fits sv fs top mid optC optS g ->
  let k := cg_core g in let rp := IZR n / 2 in let pitch := 2 * PI / IZR n in
  / 10000000000 < 2 * (rp + k_ha k) * sin (- pa) -> / 10000000000 < 2 * (rp - k_hd k) * sin (pitch / 2 + pd) ->
  DELTA / 100 <= 2 * (rp - k_hd k) * sin (PI / IZR n) ->
  exists t c, cg_build_part sv fs top mid optC optS g = Ok c /\ paired (all_edges c) /\ length (cy_sides c) = (Z.to_nat n * ((length (k_zvals k) - 1) * 6))%nat /\
    (forall z, cyc_toothed sv fs top g n z t) /\ n_point t 0 = circle_pt (rp - k_hd k) pd /\ n_point t 1 = circle_pt (rp + k_ha k) pa /\
    (forall u, 0 <= u <= 1 -> (exists x, td <= x <= 0 /\ n_point t u = lower_pt rp (cg_rin g) (cg_pia g 0) x) \/
       (exists x, 0 <= x <= ta /\ n_point t u = upper_pt rp (cg_rout g) (cg_pia g 0) x)) /\
    (forall u v, 0 <= u -> u < v -> v <= 1 -> rad2 (n_point t u) < rad2 (n_point t v)).
Proof.
  intros CG CR LZ YP FC k rp pitch TW RW AP. destruct (C123_teeth sv fs top g n 0 td pd ta pa CG YP TW RW AP) as (t & TD & P0 & P1 & PTS & UPS & LN).
  destruct (C123_uncrowned sv fs top mid optC optS g n 4 (cg_layers g) t CG ltac:(lia) (cyc_layers_ge g) CR TD LZ) as (c & EB & PA & LC).
  { destruct FC as [(H & C0)|FC]; [left; apply cyc_two_layers; assumption|right; exact FC]. }
  exists t, c. split; [exact EB|]. split; [exact PA|]. split; [rewrite LC, LN; reflexivity|]. split; [intros z; apply (cyc_toothed_const _ _ _ _ _ 0); assumption|].
  split; [exact P0|]. split; [exact P1|]. split; [exact PTS|exact UPS].
Qed.

(** ** CycloidGear(n) with the default parameters *)
(** gggears_wrapper.py 1615-1635: everything but the number of teeth, the sizes along the axis, the placement and the side of the teeth. *)
Definition default_cycloid (n : Z) (height helix : R) (center : vec) (angle module : R) (inside : bool) (zanchor : R) : cgear :=
  cyc_new (Cycloid.mkCP (IZR n) height helix 0 center angle module 0 0 (1 / 10) 1 (6 / 5) (1 / 2) (1 / 2) 0 0 inside zanchor).

(** The inner curve is a straight line through the axis, the outer one a nephroid. *)
Lemma lower_half rp pia x : 0 < rp -> lower_pt rp (1 / 2) pia x = circle_pt (rp * cos x) (- pia).
Proof.
  intros P. unfold lower_pt, trace, circle_pt. replace (x * rp / - (1 / 2 * rp)) with (- (2 * x)) by (field; lra). replace (x - pia + - (2 * x)) with (- (x + pia)) by ring.
  rewrite !cos_neg, !sin_neg, cos_minus, sin_minus, cos_plus, sin_plus. apply vec_eq; cbn [vx vy vz]; field.
Qed.
Lemma upper_half rp pia x : 0 < rp -> let a := cos x * (1 + 2 * (sin x * sin x)) in let b := 2 * (sin x * (sin x * sin x)) in
  upper_pt rp (1 / 2) pia x = V (rp * (a * cos pia + b * sin pia)) (rp * (b * cos pia - a * sin pia)) 0.
Proof.
  intros P a b. unfold a, b, upper_pt, trace. replace (x * rp / (1 / 2 * rp)) with (2 * x) by (field; lra). replace (x - pia + 2 * x) with (3 * x - pia) by ring.
  assert (C3 : cos (3 * x) = cos x * (1 - 4 * (sin x * sin x))).
  { replace (3 * x) with (2 * x + x) by ring. rewrite cos_plus, cos_2a_sin, sin_2a. ring. }
  assert (S3 : sin (3 * x) = sin x * (3 - 4 * (sin x * sin x))).
  { replace (3 * x) with (2 * x + x) by ring. rewrite sin_plus, cos_2a_sin, sin_2a. pose proof (sc1 x) as S. revert S. generalize (sin x) (cos x). clear. intros. nsatz. }
  rewrite !cos_minus, !sin_minus, C3, S3. apply vec_eq; cbn [vx vy vz]; field.
Qed.
Lemma upper_half_rad rp pia x : 0 < rp -> rad2 (upper_pt rp (1 / 2) pia x) = rp * rp * (1 + 3 * (sin x * sin x)).
Proof. intros P. rewrite upper_rad by lra. replace (x / (1 / 2)) with (2 * x) by field. rewrite cos_2a_sin. field. Qed.

Section Default.
  Variables (n : Z) (height helix : R) (center : vec) (angle module : R) (inside : bool) (zanchor : R).
  Hypothesis N : (9 <= n)%Z.
  Let g := default_cycloid n height helix center angle module inside zanchor.
  Let rp := IZR n / 2.
  Let pia := PI / (2 * IZR n).

  Lemma cd_n : 9 <= IZR n. Proof. apply IZR_le. lia. Qed.
  Lemma cd_u : 0 < / IZR n <= / 9 /\ IZR n * / IZR n = 1.
  Proof. pose proof cd_n. split; [split; [apply Rinv_0_lt_compat; lra|apply Rinv_le_contravar; lra]|apply Rinv_r; lra]. Qed.
  Lemma cd_pia : pia = PI / 2 * / IZR n. Proof. pose proof cd_n. unfold pia. field. lra. Qed.
  Lemma cd_cyc : cyc_gear g n.
  Proof. apply cyc_new_gear; [reflexivity|reflexivity|lia]. Qed.
  Lemma cd_k z : k_ha (cg_core g) = 1 /\ k_hd (cg_core g) = 6 / 5 /\ cg_pia g z = pia /\ cg_rin g = 1 / 2 /\ cg_rout g = 1 / 2.
  Proof.
    pose proof cd_n. split; [reflexivity|]. split; [reflexivity|]. split; [|split; reflexivity].
    unfold cg_pia, crowning. cbn -[Rdiv PI]. unfold pia. unfold Rdiv. rewrite ?Rmult_0_l, ?Rmult_0_r, ?Rmult_0_l. field. lra.
  Qed.
  Lemma cd_sin : 3 / 2 * / IZR n <= sin pia /\ 0 < pia < 23 / 100 /\ 0 < cos pia <= 1.
  Proof.
    destruct cd_u as ((U0 & U1) & _). pose proof PI_31. pose proof PI_4. pose proof cd_pia as E.
    assert (A : 31 / 20 * / IZR n < PI / 2 * / IZR n) by (apply Rmult_lt_compat_r; lra).
    assert (B : PI / 2 * / IZR n <= 4 / 2 * / 9) by (apply Rmult_le_compat; lra).
    split; [|split; [lra|split; [apply cos_gt_0; lra|apply COS_bound]]].
    pose proof (IndexProps.sin_lower pia) as L. assert (SP : 0 < sin pia) by (apply sin_gt_0; lra). rewrite !Rabs_right in L by lra.
    assert (Q : pia * pia <= 23 / 100 * (23 / 100)) by (apply Rmult_le_compat; lra).
    assert (pia * (98 / 100) <= pia * (1 - pia * pia / 6)) by (apply Rmult_le_compat_l; lra). lra.
  Qed.
  Lemma cd_low x : 0 <= x <= PI / 2 -> rad2 (upper_pt rp (1 / 2) pia x) < (rp + 11 / 10) * (rp + 11 / 10) ->
    vy (upper_pt rp (1 / 2) pia x) <= - / 100 /\ 0 < vx (upper_pt rp (1 / 2) pia x).
  Proof.
    intros X R. destruct cd_u as ((U0 & U1) & NU). pose proof cd_n as NN. destruct cd_sin as (S0 & P0 & C0). assert (P : 0 < rp) by (unfold rp; lra).
    rewrite upper_half_rad in R by exact P. rewrite upper_half by exact P. cbn [vx vy]. set (u := / IZR n) in *.
    pose proof (sc1 x) as SC. assert (SX : 0 <= sin x) by (apply sin_ge_0; lra). assert (CX : 0 <= cos x) by (apply cos_ge_0; lra).
    set (c := cos x) in *. set (s := sin x) in *. set (q := s * s) in *.
    assert (PU : rp * u = / 2) by (unfold rp; replace (IZR n / 2 * u) with (IZR n * u / 2) by field; rewrite NU; field).
    assert (Q : 3 * q < 44 / 10 * u + 484 / 100 * (u * u)).
    { apply Rmult_lt_reg_l with (rp * rp); [apply Rmult_lt_0_compat; exact P|]. 
      replace (rp * rp * (44 / 10 * u + 484 / 100 * (u * u))) with (44 / 10 * rp * (rp * u) + 484 / 100 * (rp * u) * (rp * u)) by ring. rewrite PU. lra. }
    assert (UU : u * u <= u * / 9) by (apply Rmult_le_compat_l; lra). assert (Q0 : 0 <= q) by apply Rle_0_sqr.
    assert (Q1 : q <= 1646 / 1000 * u) by lra. assert (Q2 : q <= 183 / 1000) by lra.
    assert (QQ : q * q <= 1646 / 1000 * u * (1646 / 1000 * u)) by (apply Rmult_le_compat; lra). assert (QQ0 : 0 <= q * q) by (apply Rmult_le_pos; lra).
    assert (Q3 : q * q * q <= 1646 / 1000 * u * (1646 / 1000 * u) * (183 / 1000)) by (apply Rmult_le_compat; lra).
    assert (Q4 : q * q * q <= 183 / 1000 * (183 / 1000) * q) by (apply Rmult_le_compat_r; [lra|apply Rmult_le_compat; lra]).
    set (a := c * (1 + 2 * q)). set (b := 2 * (s * q)). assert (B0 : 0 <= b) by (unfold b; assert (0 <= s * q) by (apply Rmult_le_pos; lra); lra).
    assert (A0 : 0 <= a) by (apply Rmult_le_pos; lra).
    assert (AA : a * a = 1 + 3 * q - 4 * (q * q * q)).
    { unfold a. replace (c * (1 + 2 * q) * (c * (1 + 2 * q))) with (c * c * ((1 + 2 * q) * (1 + 2 * q))) by ring. assert (CQ : c * c = 1 - q) by lra. rewrite CQ. ring. }
    assert (A1 : 1 <= a). { destruct (Rle_dec 1 a) as [G|G]; [exact G|exfalso]. assert (a * a <= a * 1) by (apply Rmult_le_compat_l; lra). lra. }
    assert (BB : b * b = 4 * (q * q * q)) by (unfold b, q; ring).
    assert (B1 : b <= 1425 / 1000 * u).
    { destruct (Rle_dec b (1425 / 1000 * u)) as [G|G]; [exact G|exfalso]. assert (1425 / 1000 * u * (1425 / 1000 * u) < b * b) by (apply Rmult_le_0_lt_compat; lra).
      assert (0 < u * u) by (apply Rmult_lt_0_compat; lra). lra. }
    assert (BC : b * cos pia <= b * 1) by (apply Rmult_le_compat_l; lra). assert (AS : 1 * sin pia <= a * sin pia) by (apply Rmult_le_compat_r; lra).
    assert (AC : 0 < a * cos pia) by (apply Rmult_lt_0_compat; lra). assert (BS : 0 <= b * sin pia) by (apply Rmult_le_pos; lra). split.
    - apply Rle_trans with (rp * (- (75 / 1000) * u)); [apply Rmult_le_compat_l; lra|]. replace (rp * (- (75 / 1000) * u)) with (- (75 / 1000) * (rp * u)) by ring. rewrite PU. lra.
    - apply Rmult_lt_0_compat; lra.
  Qed.
  (** The depths of the rolling positions at the root circle and at the tip circle. *)
  Let td := - acos (1 - 12 / 5 * / IZR n).
  Let ta := asin (sqrt ((4 * / IZR n + 4 * (/ IZR n * / IZR n)) / 3)).
  Lemma cd_td : - (PI / 4) <= td < 0 /\ cos td = 1 - 12 / 5 * / IZR n.
  Proof.
    destruct cd_u as ((U0 & U1) & NU). pose proof PI_RGT_0. set (u := / IZR n) in *. unfold td. fold u. set (y := 1 - 12 / 5 * u).
    assert (CY : cos (acos y) = y) by (apply cos_acos; unfold y; lra). pose proof (acos_bound y) as AB. rewrite cos_neg. split; [|exact CY]. split.
    - destruct (Rle_dec (acos y) (PI / 4)) as [G|G]; [lra|exfalso]. assert (cos (acos y) < cos (PI / 4)) by (apply cos_decreasing_1; lra). rewrite CY, cos_PI4 in *.
      assert (S2 : 1414 / 1000 < sqrt 2) by (apply sqrt_bound; lra). assert (1 / sqrt 2 < 72 / 100).
      { apply Rmult_lt_reg_r with (sqrt 2); [lra|]. unfold Rdiv. rewrite Rmult_assoc, Rinv_l by lra. lra. }
      unfold y in *. lra.
    - destruct (Req_dec (acos y) 0) as [E|E]; [|lra]. exfalso. rewrite E, cos_0 in CY. unfold y in *. lra.
  Qed.
  Lemma cd_ta : 0 < ta <= PI / 2 /\ rad2 (upper_pt rp (1 / 2) pia ta) = (rp + 1) * (rp + 1).
  Proof.
    destruct cd_u as ((U0 & U1) & NU). pose proof cd_n as NN. pose proof PI_RGT_0. unfold ta. set (u := / IZR n) in *. set (y := (4 * u + 4 * (u * u)) / 3).
    assert (UU : 0 < u * u) by (apply Rmult_lt_0_compat; lra). assert (UU1 : u * u <= u * / 9) by (apply Rmult_le_compat_l; lra).
    assert (Y : 0 < y < 1) by (unfold y; lra). assert (SY : 0 < sqrt y) by (apply sqrt_lt_R0; lra). assert (SY1 : sqrt y < 1) by (apply sqrt_bound_up; lra).
    assert (SA : sin (asin (sqrt y)) = sqrt y) by (apply sin_asin; lra). pose proof (asin_bound (sqrt y)) as AB. split; [split; [|lra]|].
    - destruct (Rlt_dec 0 (asin (sqrt y))) as [G|G]; [exact G|exfalso]. assert (0 <= sin (- asin (sqrt y))) by (apply sin_ge_0; lra). rewrite sin_neg in *. lra.
    - rewrite upper_half_rad by (unfold rp; lra). rewrite SA, sqrt_sqrt by lra.
      assert (PU : rp * u = / 2) by (unfold rp; replace (IZR n / 2 * u) with (IZR n * u / 2) by field; rewrite NU; field).
      unfold y. replace (rp * rp * (1 + 3 * ((4 * u + 4 * (u * u)) / 3))) with (rp * rp + 4 * rp * (rp * u) + 4 * (rp * u) * (rp * u)) by field. rewrite PU. field.
  Qed.
  Lemma cd_pa : exists pa, - (PI / 2) < pa < 0 /\ upper_pt rp (1 / 2) pia ta = circle_pt (rp + 1) pa /\ / 50 <= 2 * (rp + 1) * sin (- pa).
  Proof.
    destruct cd_ta as (T0 & T1). pose proof cd_n as NN. destruct (cd_low ta ltac:(lra)) as (Y & X).
    { rewrite T1. apply Rmult_le_0_lt_compat; unfold rp; lra. }
    pose proof (upper_half rp pia ta ltac:(unfold rp; lra)) as Z. cbv zeta in Z. apply (f_equal vz) in Z. cbn [vz] in Z.
    set (p := upper_pt rp (1 / 2) pia ta) in *. exists (atan (vy p / vx p)). pose proof (atan_bound (vy p / vx p)) as AB.
    destruct (polar_atan (vx p) (vy p) X) as (PC & PS). change (vx p * vx p + vy p * vy p) with (rad2 p) in PC, PS. rewrite T1, sqrt_square in PC, PS by (unfold rp; lra).
    assert (A0 : atan (vy p / vx p) < 0).
    { rewrite <- atan_0. apply atan_increasing. apply Rmult_lt_reg_r with (vx p); [exact X|]. unfold Rdiv. rewrite Rmult_assoc, Rinv_l by lra. lra. }
    split; [lra|]. split.
    - unfold circle_pt. apply vec_eq; cbn [vx vy vz]; lra.
    - rewrite sin_neg. lra.
  Qed.
  Lemma cd_shape pa : - (PI / 2) < pa < 0 -> upper_pt rp (1 / 2) pia ta = circle_pt (rp + 1) pa ->
    cyc_shape rp (1 / 2) (1 / 2) pia 1 (6 / 5) (2 * PI / IZR n) td (- pia) ta pa.
  Proof.
    intros A E. pose proof cd_n as NN. destruct cd_ta as (T0 & T1). destruct cd_td as (D0 & D1). destruct cd_u as ((U0 & U1) & NU). destruct cd_sin as (_ & P0 & _). pose proof cd_pia as EP. pose proof PI_RGT_0. pose proof PI_4.
    assert (HP : 2 * PI / IZR n = 4 * pia) by (rewrite EP; field; lra).
    split; try assumption; try lra; try (unfold rp; lra).
    - rewrite HP. pose proof PI_3. lra.
    - rewrite lower_half by (unfold rp; lra). f_equal. rewrite D1. unfold rp. replace (IZR n / 2 * (1 - 12 / 5 * / IZR n)) with (IZR n / 2 - 6 / 5 * (IZR n * / IZR n)) by (field; lra). rewrite NU. ring.
  Qed.

  (** What the profile asks of the searches: the one for the end of the outer curve reports a point in the symmetry plane of the tooth, not beyond half a
      turn of the rolling circle; those for the tip circle and the root circle succeed, and that of the tip truncation reports only points in the plane. *)
  Definition cyc_searches (sv : solver) (fs : fsolver) (top : curve -> R) : Prop :=
    let T := s2t (cyc_upper rp (1 / 2) pia) (top (cyc_upper rp (1 / 2) pia)) in
    let tooth := cg_tooth top g 0 in let rc := generate_reference_circles rp 1 (6 / 5) (k_ho (cg_core g)) 0 rp in
    (0 <= T <= PI / 2 /\ vy (upper_pt rp (1 / 2) pia T) = 0) /\ plane_sound fs tooth /\ tip_found sv tooth (rc_a rc) (2 * PI / IZR n) /\
    (forall n1, trim_tip sv tooth (rc_a rc) 0 (2 * PI / IZR n) = Ok n1 -> root_found sv n1 (rc_d rc) (2 * PI / IZR n)).
  Lemma cd_top T : 0 <= T <= PI / 2 -> vy (upper_pt rp (1 / 2) pia T) = 0 -> ta <= T.
  Proof.
    intros T0 V0. destruct cd_ta as (A0 & A1). pose proof cd_n as NN. destruct (Rle_dec ta T) as [G|G]; [exact G|exfalso].
    assert (L : rad2 (upper_pt rp (1 / 2) pia T) < rad2 (upper_pt rp (1 / 2) pia ta)) by (apply upper_up; try lra; unfold rp; lra).
    destruct (cd_low T T0) as (Y & _); [|lra]. rewrite A1 in L. eapply Rlt_trans; [exact L|]. apply Rmult_le_0_lt_compat; unfold rp; lra.
  Qed.
  Lemma cd_plain sv fs top pa : cyc_searches sv fs top -> - (PI / 2) < pa < 0 -> upper_pt rp (1 / 2) pia ta = circle_pt (rp + 1) pa -> cyc_plain sv fs top g n 0 td (- pia) ta pa.
  Proof.
    intros ((T0 & T1) & SO & TF & RF) A E. destruct (cd_k 0) as (K1 & K2 & K3 & K4 & K5). pose proof cd_n as NN. destruct cd_td as (D0 & D1). destruct cd_sin as (S0 & P0 & C0). destruct cd_u as ((U0 & U1) & NU). pose proof PI_4.
    split; try reflexivity; rewrite ?K1, ?K2, ?K3, ?K4, ?K5; fold rp.
    - apply cd_shape; assumption.
    - split; [apply cd_top; assumption|]. lra.
    - split; [exact TF|exact RF].
    - intros _. split; [exact SO|]. split.
      + intros x X. rewrite lower_half by (unfold rp; lra). unfold circle_pt. cbn [vy]. rewrite sin_neg. pose proof PI_3. assert (0 < cos x) by (apply cos_gt_0; lra).
        assert (0 < rp * cos x) by (apply Rmult_lt_0_compat; unfold rp; lra). assert (0 < rp * cos x * sin pia) by (apply Rmult_lt_0_compat; lra). lra.
      + intros x X R. destruct (cd_low x ltac:(lra)) as (Y & _); [|lra]. change (cp_tip_trunc (cg_in g)) with (1 / 10) in R. replace (rp + 11 / 10) with (rp + 1 + 1 / 10) by lra. exact R.
  Qed.

  Lemma cd_sizes : let k := cg_core g in / 10000000000 < 2 * (rp - k_hd k) * sin (2 * PI / IZR n / 2 + - pia) /\ DELTA / 100 <= 2 * (rp - k_hd k) * sin (PI / IZR n).
  Proof.
    destruct (cd_k 0) as (K1 & K2 & K3 & K4 & K5). pose proof cd_n as NN. destruct cd_sin as (S0 & P0 & C0). destruct cd_u as ((U0 & U1) & NU). pose proof cd_pia as EP.
    assert (HP : 2 * PI / IZR n = 4 * pia) by (rewrite EP; field; lra). cbv zeta. split.
    - rewrite K2. fold rp. rewrite HP. replace (4 * pia / 2 + - pia) with pia by field.
      assert (33 / 10 * (3 / 2 * / IZR n) <= (rp - 6 / 5) * sin pia) by (apply Rmult_le_compat; try lra; unfold rp; lra).
      assert (RS : 3 / 10 * rp <= rp - 6 / 5) by (unfold rp; lra).
      assert (3 / 10 * rp * (3 / 2 * / IZR n) <= (rp - 6 / 5) * sin pia) by (apply Rmult_le_compat; try lra; unfold rp; lra).
      assert (3 / 10 * rp * (3 / 2 * / IZR n) = 9 / 40) by (unfold rp; replace (3 / 10 * (IZR n / 2) * (3 / 2 * / IZR n)) with (9 / 40 * (IZR n * / IZR n)) by (field; lra); rewrite NU; ring). lra.
    - rewrite K2. fold rp. replace (PI / IZR n) with (2 * pia) by (rewrite EP; field; lra). pose proof PI_4. pose proof PI_3.
      assert (SM : sin pia <= sin (2 * pia)) by (left; apply sin_increasing_1; lra).
      assert (RS : 3 / 10 * rp <= rp - 6 / 5) by (unfold rp; lra).
      assert (3 / 10 * rp * (3 / 2 * / IZR n) <= (rp - 6 / 5) * sin (2 * pia)) by (apply Rmult_le_compat; try lra; unfold rp; lra).
      assert (3 / 10 * rp * (3 / 2 * / IZR n) = 9 / 40) by (unfold rp; replace (3 / 10 * (IZR n / 2) * (3 / 2 * / IZR n)) with (9 / 40 * (IZR n * / IZR n)) by (field; lra); rewrite NU; ring).
      unfold DELTA. lra.
  Qed.

  (** build_part() of CycloidGear(n) succeeds, the skin of the part is closed, and the flanks are radial below the pitch circle and
      nephroids above it. *)
  Theorem C123_default sv fs top mid optC optS : cyc_searches sv fs top -> helix = 0 \/ cyc_fits sv fs top mid optC optS g ->
    exists t c, cg_build_part sv fs top mid optC optS g = Ok c /\ paired (all_edges c) /\ length (cy_sides c) = (Z.to_nat n * 6)%nat /\
      (forall z, cyc_toothed sv fs top g n z t) /\ n_point t 0 = circle_pt (rp - 6 / 5) (- pia) /\ axis_dist (n_point t 1) = rp + 1 /\ vy (n_point t 1) < 0 /\
      (forall u, 0 <= u <= 1 -> (exists r, rp - 6 / 5 <= r <= rp /\ n_point t u = circle_pt r (- pia)) \/
         (exists x, 0 <= x <= PI / 2 /\ n_point t u = upper_pt rp (1 / 2) pia x)) /\
      (forall u v, 0 <= u -> u < v -> v <= 1 -> rad2 (n_point t u) < rad2 (n_point t v)).
  Proof.
    intros SS FC. destruct cd_pa as (pa & A & E & W). pose proof (cd_plain sv fs top pa SS A E) as YP. destruct (cd_k 0) as (K1 & K2 & K3 & K4 & K5). pose proof cd_n as NN. destruct cd_ta as (T0 & T1).
    destruct cd_sin as (S0 & P0 & C0). destruct cd_u as ((U0 & U1) & NU). pose proof cd_pia as EP. destruct cd_td as (D0 & D1).
    assert (HP : 2 * PI / IZR n = 4 * pia) by (rewrite EP; field; lra).
    destruct (C123_part sv fs top mid optC optS g n td (- pia) ta pa cd_cyc eq_refl) as (t & c & EB & PA & LC & TD & Q0 & Q1 & PTS & UPS).
    - cbn. lia.
    - exact YP.
    - destruct FC as [H|FC]; [left; split; [exact H|reflexivity]|right; exact FC].
    - rewrite K1. fold rp. lra.
    - apply cd_sizes.
    - apply cd_sizes.
    - rewrite K1, K2, K3, K4, K5 in *. fold rp in Q0, Q1, PTS. exists t, c. split; [exact EB|]. split; [exact PA|]. split; [exact LC|]. split; [exact TD|]. split; [exact Q0|]. split; [|split; [|split; [|exact UPS]]].
      + rewrite Q1. unfold axis_dist. change (sqrt (rad2 (circle_pt (rp + 1) pa)) = rp + 1). rewrite rad2_circle, sqrt_square; [reflexivity|unfold rp; lra].
      + rewrite Q1. unfold circle_pt. cbn [vy]. rewrite sin_neg in W. lra.
      + intros u U. destruct (PTS u U) as [(x & X & E1)|(x & X & E1)]; [left|right; exists x; split; [lra|exact E1]].
        exists (rp * cos x). rewrite lower_half in E1 by (unfold rp; lra). split; [|exact E1]. pose proof PI_4. pose proof PI_3.
        assert (P : 0 <= rp) by (unfold rp; lra). split.
        * assert (CL : cos td <= cos x). { rewrite <- (cos_neg td), <- (cos_neg x). destruct (Req_dec x td) as [->|NE]; [lra|]. left. apply cos_decreasing_1; lra. }
          assert (rp * cos td <= rp * cos x) by (apply Rmult_le_compat_l; lra). rewrite D1 in *.
          assert (rp * (1 - 12 / 5 * / IZR n) = rp - 6 / 5) by (unfold rp; replace (IZR n / 2 * (1 - 12 / 5 * / IZR n)) with (IZR n / 2 - 6 / 5 * (IZR n * / IZR n)) by (field; lra); rewrite NU; ring). lra.
        * rewrite <- (Rmult_1_r rp) at 2. apply Rmult_le_compat_l; [exact P|apply COS_bound].
  Qed.

  (** Answers of all searches exist. *)
  Theorem C123_solvable : exists sv fs top, cyc_searches sv fs top.
  Proof.
    destruct cd_pa as (pa & A & E & _). pose proof cd_n as NN. destruct cd_ta as (T0 & T1). destruct cd_sin as (S0 & P0 & C0). destruct cd_u as ((UI & _) & _). pose proof PI_3. pose proof PI_4.
    assert (RP : 0 < rp) by (unfold rp; lra).
    set (f := fun x => vy (upper_pt rp (1 / 2) pia x)).
    assert (CF : continuity f).
    { intros x. unfold f, upper_pt, trace. cbn [vy]. apply derivable_continuous_pt. unfold Rdiv. reg. }
    assert (TE : exists T, 0 <= T <= PI / 2 /\ vy (upper_pt rp (1 / 2) pia T) = 0).
    { destruct (IVT_cor f 0 (PI / 2) CF ltac:(lra)) as (T & TB & TZ).
      - assert (F0 : f 0 <= 0).
        { unfold f, upper_pt. rewrite trace_0. unfold circle_pt. cbn [vy]. rewrite sin_neg. assert (0 < sin pia) by lra. assert (0 < rp * sin pia) by (apply Rmult_lt_0_compat; lra). lra. }
        assert (F1 : 0 <= f (PI / 2)).
        { unfold f. pose proof (upper_half rp pia (PI / 2) RP) as K. cbv zeta in K. rewrite K. cbn [vy]. rewrite sin_PI2, cos_PI2. assert (0 <= rp * cos pia) by (apply Rmult_le_pos; lra). lra. }
        assert (0 <= - f 0 * f (PI / 2)) by (apply Rmult_le_pos; lra). lra.
      - exists T. split; [exact TB|exact TZ]. }
    destruct TE as (T & TB & TZ). pose proof (cd_top T TB TZ) as LT.
    set (c := cyc_upper rp (1 / 2) pia).
    assert (INV : s2t c (t2s c T) = T).
    { assert (DU0 : c_t0 c = 0) by reflexivity. assert (DU1 : c_t1 c = pia * 2) by reflexivity.
      assert (RU : rising rad2 c).
      { split.
        - apply new_fresh.
        - apply NDIV_2.
        - reflexivity.
        - left. eexists. reflexivity.
        - rewrite DU0, DU1. lra.
        - rewrite DU0, DU1. intros t t' B C D. unfold c. rewrite !upper_fun. apply upper_up; lra. }
      apply C28_s2t_inverts_t2s; [apply new_fresh|apply NDIV_2|apply (rising_table rad2 c RU)|]. rewrite DU0, DU1. lra. }
    set (top := fun c => t2s c T).
    assert (TP : cyc_top rp (1 / 2) pia ta (top c)) by (unfold cyc_top, top; fold c; rewrite INV; lra).
    destruct (cd_k 0) as (K1 & K2 & K3 & K4 & K5).
    assert (TE : cg_tooth top g 0 = cyc_tooth rp (1 / 2) (1 / 2) pia (top c)).
    { unfold cg_tooth. rewrite (yg_rp _ _ cd_cyc), K3, K4, K5. reflexivity. }
    pose proof (cd_shape pa A E) as CS.
    destruct (cyc_cut_solvable _ _ _ _ _ _ _ _ _ _ _ CS (top c) (k_ho (cg_core g)) rp TP) as (sv & TF & RF).
    destruct (tooth_facts _ _ _ _ _ _ _ _ _ _ _ CS (top c) TP) as (RN & W & LV & EN & E1 & L0 & L1 & U0 & U1 & UF & R0 & R1).
    exists sv, (meets_at 1), top. unfold cyc_searches. cbv zeta. fold c. unfold top at 1 2 3. rewrite INV, TE. split; [split; [exact TB|exact TZ]|]. split; [|split; [exact TF|exact RF]].
    intros gg x EX. unfold meets_at in EX. cbn [fs_plane] in EX. injection EX as <-. split; [lra|].
    destruct (leaves_ends _ dummy_curve (rn_act _ _ RN) (rising_positive rad2 _ (rn_leaves _ _ RN))) as (_ & ->). rewrite LV. cbn [last].
    unfold c_eval. destruct (rising_ends rad2 _ R1) as (_ & S1). rewrite S1, U1, UF. unfold top at 1. fold c. rewrite INV. exact TZ.
  Qed.
End Default.

(** An optimiser whose fits have converged exists, for any cycloid gear. *)
Theorem C123_fits sv fs top mid optC g : exists optS, cyc_fits sv fs top mid optC optS g.
Proof.
  set (nv := cg_layers g). set (tw := n_z_tweens nv 3).
  exists (fun tg => best_fit tg tw (length (nb_points (chain_at optC 4 3 (cg_section_at sv fs top mid g) (k_slice (cg_core g)) 0))) nv).
  intros hs _. cbv zeta. apply C115_solvable; [apply cyc_layers_ge|]. assert (L : (2 <= nv)%nat) by apply cyc_layers_ge. fold nv. fold tw. unfold tw, n_z_tweens.
  assert (R : 0 <= (INR nv - 2) * 3). { apply le_INR in L. cbn [INR] in L. lra. }
  assert (0 <= ceilZ ((INR nv - 2) * 3))%Z; [|lia]. pose proof (ceilZ_bound ((INR nv - 2) * 3)) as C. apply le_IZR. lra.
Qed.

(** ** Examples *)
(** CycloidGear(12). *)
Definition ex_cyc : cgear := default_cycloid 12 10 0 ORIGIN 0 2 false 0.
(** CycloidGear(12, helix_angle=pi/6). *)
Definition ex_cyc_helix : cgear := default_cycloid 12 10 (PI / 6) ORIGIN 0 2 false 0.
Example C123_solvable_example : exists sv fs top, cyc_searches 12 10 (PI / 6) ORIGIN 0 2 false 0 sv fs top.
Proof. apply C123_solvable. lia. Qed.
Example C123_default_example : exists sv fs top, forall mid optC optS, exists c,
  cg_build_part sv fs top mid optC optS ex_cyc = Ok c /\ paired (all_edges c) /\ length (cy_sides c) = 72%nat.
Proof.
  destruct (C123_solvable 12 10 0 ORIGIN 0 2 false 0 ltac:(lia)) as (sv & fs & top & SS). exists sv, fs, top. intros mid optC optS.
  destruct (C123_default 12 10 0 ORIGIN 0 2 false 0 ltac:(lia) sv fs top mid optC optS SS (or_introl eq_refl)) as (t & c & EB & PA & LC & _).
  exists c. split; [exact EB|]. split; [exact PA|exact LC].
Qed.
Example C123_default_example_helix : exists sv fs top, forall mid optC, exists optS c,
  cg_build_part sv fs top mid optC optS ex_cyc_helix = Ok c /\ paired (all_edges c) /\ length (cy_sides c) = 72%nat.
Proof.
  destruct C123_solvable_example as (sv & fs & top & SS). exists sv, fs, top. intros mid optC. destruct (C123_fits sv fs top mid optC ex_cyc_helix) as (optS & FC).
  destruct (C123_default 12 10 (PI / 6) ORIGIN 0 2 false 0 ltac:(lia) sv fs top mid optC optS SS (or_intror FC)) as (t & c & EB & PA & LC & _).
  exists optS, c. split; [exact EB|]. split; [exact PA|exact LC].
Qed.
Example C123_fits_example : (3 <= cg_layers ex_cyc_helix)%nat /\ exists sv fs top, cyc_searches 12 10 (PI / 6) ORIGIN 0 2 false 0 sv fs top /\
  forall mid optC, exists optS, cyc_fits sv fs top mid optC optS ex_cyc_helix.
Proof.
  split.
  - unfold cg_layers. pose proof PI_RGT_0. apply C116_layers_cycloid. left. change (PI / 6 <> 0). lra.
  - destruct C123_solvable_example as (sv & fs & top & SS). exists sv, fs, top. split; [exact SS|]. intros mid optC. apply C123_fits.
Qed.
Lemma ex_cyc_ready : exists sv fs top td pd ta pa, cyc_plain sv fs top ex_cyc 12 0 td pd ta pa /\ let k := cg_core ex_cyc in
  / 10000000000 < 2 * (12 / 2 + k_ha k) * sin (- pa) /\ / 10000000000 < 2 * (12 / 2 - k_hd k) * sin (2 * PI / 12 / 2 + pd) /\ DELTA / 100 <= 2 * (12 / 2 - k_hd k) * sin (PI / 12).
Proof.
  assert (N : (9 <= 12)%Z) by lia. destruct (C123_solvable 12 10 0 ORIGIN 0 2 false 0 N) as (sv & fs & top & SS). exists sv, fs, top.
  destruct (cd_pa 12 N) as (pa & A & E & W). pose proof (cd_plain 12 10 0 ORIGIN 0 2 false 0 N sv fs top pa SS A E) as YP.
  eexists _, _, _, pa. split; [exact YP|]. destruct (cd_sizes 12 10 0 ORIGIN 0 2 false 0 N) as (S1 & S2).
  destruct (cd_k 12 10 0 ORIGIN 0 2 false 0 ltac:(lia) 0) as (K1 & _). unfold ex_cyc. cbv zeta. split; [rewrite K1; lra|]. split; [exact S1|exact S2].
Qed.
Example C123_teeth_example : exists sv fs top t, cyc_toothed sv fs top ex_cyc 12 0 t /\ axis_dist (n_point t 0) = 24 / 5 /\ axis_dist (n_point t 1) = 7.
Proof.
  destruct ex_cyc_ready as (sv & fs & top & td & pd & ta & pa & YP & S1 & S2 & S3). exists sv, fs, top.
  destruct (C123_teeth sv fs top ex_cyc 12 0 td pd ta pa (cd_cyc 12 10 0 ORIGIN 0 2 false 0 ltac:(lia)) YP S1 S2 S3) as (t & TD & P0 & P1 & _).
  destruct (cd_k 12 10 0 ORIGIN 0 2 false 0 ltac:(lia) 0) as (K1 & K2 & _). fold ex_cyc in K1, K2. rewrite K1 in P1. rewrite K2 in P0.
  exists t. split; [exact TD|]. rewrite P0, P1. unfold axis_dist.
  change (sqrt (rad2 (circle_pt (12 / 2 - 6 / 5) pd)) = 24 / 5 /\ sqrt (rad2 (circle_pt (12 / 2 + 1) pa)) = 7). rewrite !rad2_circle, !sqrt_square by lra. lra.
Qed.
Example C123_part_example : exists sv fs top, forall mid optC optS, exists c, cg_build_part sv fs top mid optC optS ex_cyc = Ok c /\ paired (all_edges c) /\ length (cy_sides c) = 72%nat.
Proof.
  destruct ex_cyc_ready as (sv & fs & top & td & pd & ta & pa & YP & S1 & S2 & S3). exists sv, fs, top. intros mid optC optS.
  destruct (C123_part sv fs top mid optC optS ex_cyc 12 td pd ta pa (cd_cyc 12 10 0 ORIGIN 0 2 false 0 ltac:(lia)) eq_refl ltac:(cbn; lia) YP
    (or_introl (conj eq_refl eq_refl)) S1 S2 S3) as (t & c & EB & PA & LC & _).
  exists c. split; [exact EB|]. split; [exact PA|exact LC].
Qed.
Lemma two_tweens : n_z_tweens 2 3 = 2%nat.
Proof. unfold n_z_tweens. replace ((INR 2 - 2) * 3) with (IZR 0) by (cbn; ring). unfold ceilZ. rewrite <- opp_IZR, floorZ_IZR. reflexivity. Qed.
Example C123_uncrowned_example : exists sv fs top t, forall mid optC optS, exists c, cg_build sv fs top mid optC optS ex_cyc 5 2 = Ok c /\ paired (all_edges c) /\
  length (cy_sides c) = (12 * (2 * (1 + length (leaves t))))%nat.
Proof.
  destruct C123_teeth_example as (sv & fs & top & t & TD & _). exists sv, fs, top, t. intros mid optC optS.
  destruct (C123_uncrowned sv fs top mid optC optS ex_cyc 12 5 2 t (cd_cyc 12 10 0 ORIGIN 0 2 false 0 ltac:(lia)) ltac:(lia) ltac:(lia) eq_refl TD ltac:(cbn; lia) (or_introl two_tweens)) as (c & EB & PA & LC).
  exists c. split; [exact EB|]. split; [exact PA|]. rewrite LC. change (Z.to_nat 12) with 12%nat. change (length (k_zvals (cg_core ex_cyc)) - 1)%nat with 1%nat. generalize (length (leaves t)). intros. lia.
Qed.
Example C123_closed_example : exists sv fs top, forall mid optC optS, exists (K : list nat) c, cg_build sv fs top mid optC optS ex_cyc 12 2 = Ok c /\ paired (all_edges c) /\
  length (cy_sides c) = (12 * (length K - 4))%nat.
Proof.
  destruct C123_teeth_example as (sv & fs & top & t & TD & _). exists sv, fs, top. intros mid optC optS.
  pose proof (cd_cyc 12 10 0 ORIGIN 0 2 false 0 ltac:(lia)) as CG. fold ex_cyc in CG.
  destruct (cyc_base_chain sv fs top mid optC ex_cyc (2 * PI / 12) 12 ltac:(lia) eq_refl (cyc_toothed_section _ _ _ _ ex_cyc 12 t CG TD)) as (b & OK & JT & LK & SC).
  destruct (C123_closed sv fs top mid optC optS ex_cyc 12 12 2 (nb_knots b) CG ltac:(lia) ltac:(lia) ltac:(cbn; lia)) as (c & EB & PA & LC).
  - intros z _. split; [exists t; apply (cyc_toothed_const _ _ _ _ _ 0); [reflexivity|exact TD]|]. intros c E. rewrite SC in E. apply Ok_inj in E. rewrite <- E. apply knots_moved.
  - left. apply two_tweens.
  - exists (nb_knots b), c. split; [exact EB|]. split; [exact PA|]. rewrite LC. change (Z.to_nat 12) with 12%nat. change (length (k_zvals (cg_core ex_cyc)) - 1)%nat with 1%nat. lia.
Qed.
