(** C128: involute_func never returns a point of an involute. *)
From Coq Require Import Reals List Lra.
From Verif Require Import Num Vec.
From Verif Require Import OldInvolute.
Import ListNotations.
Open Scope R_scope.

(** The involute of a circle about the origin: go along the circle by the angle [a + t] and back along the tangent by
    the arc [r * t]. *)
Definition involute_point (r a t : R) : vec :=
  V (r * cos (a + t) + r * t * sin (a + t)) (r * sin (a + t) - r * t * cos (a + t)) 0.
Definition columns (A : mat) : list vec := [V (m11 A) (m21 A) (m31 A); V (m12 A) (m22 A) (m32 A); V (m13 A) (m23 A) (m33 A)].

Lemma V_eq x y z x' y' z' : x = x' -> y = y' -> z = z' -> V x y z = V x' y' z'.
Proof. intros -> -> ->. reflexivity. Qed.

(** What comes back in the plane: nine numbers, whose columns are the three coordinates of the unturned point spread
    over the diagonal direction, each with the offset, turned. *)
Theorem C128_plane : forall t r a ro tn zo,
  exists A, involute_func t r a ro tn zo 0 = Ok (Arr33 A) /\
  columns A = map (fun w => V ((w + ro) * cos (t + a) - (w + tn) * sin (t + a))
                              ((w + ro) * sin (t + a) + (w + tn) * cos (t + a)) (w + zo)) [r; - (r * t); 0].
Proof.
  intros. unfold involute_func, involute_val. destruct (Req_EM_T 0 0) as [_|n]; [|lra].
  eexists; split; [reflexivity|].
  cbv [columns mtrans apply_rows of_rows bcast mapp row1 row2 row3 smul vadd rotz RIGHT DOWN map vx vy vz m11 m12 m13 m21 m22 m23 m31 m32 m33].
  apply f_equal2; [apply V_eq; ring|]. apply f_equal2; [apply V_eq; ring|]. apply f_equal2; [apply V_eq; ring|]. reflexivity.
Qed.

(** No column of it is the point of the involute. *)
Theorem C128_plane_refuted : forall t r a A, r <> 0 -> involute_func t r a 0 0 0 0 = Ok (Arr33 A) ->
  ~ In (involute_point r a t) (columns A).
Proof.
  intros t r a A Hr E. destruct (C128_plane t r a 0 0 0) as (B & E' & C). rewrite E in E'. injection E' as <-. rewrite C.
  cbn [map In]. set (c := cos (t + a)) in *. set (s := sin (t + a)) in *.
  unfold involute_point. rewrite (Rplus_comm a t). fold c s.
  assert (CS : s * s + c * c = 1) by (unfold s, c; pose proof (sin2_cos2 (t + a)) as H; unfold Rsqr in H; lra).
  assert (NZ : forall u, u = 0 -> 0 = r * c + r * u * s -> 0 = r * s - r * u * c -> False).
  { intros u -> H1 H2. assert (r * c = 0) by lra. assert (r * s = 0) by lra.
    assert (c = 0) by (destruct (Rmult_integral _ _ H); [contradiction | assumption]).
    assert (s = 0) by (destruct (Rmult_integral _ _ H0); [contradiction | assumption]).
    rewrite H3, H4 in CS. lra. }
  intros [H|[H|[H|[]]]]; injection H as H1 H2 H3.
  - lra.
  - assert (T : r * t = 0) by lra. assert (t = 0) by (destruct (Rmult_integral _ _ T); [contradiction | assumption]).
    apply (NZ 0 eq_refl).
    + rewrite T in H1. lra.
    + rewrite T in H2. lra.
  - assert (K1 : r * (c + t * s) = 0) by lra. assert (K2 : r * (s - t * c) = 0) by lra.
    assert (L1 : c + t * s = 0) by (destruct (Rmult_integral _ _ K1); [contradiction | assumption]).
    assert (L2 : s - t * c = 0) by (destruct (Rmult_integral _ _ K2); [contradiction | assumption]).
    assert (P : c * (c + t * s) + s * (s - t * c) = 1) by (replace (c * (c + t * s) + s * (s - t * c)) with (s * s + c * c) by ring; exact CS).
    rewrite L1, L2 in P. lra.
Qed.

(** With a curvature it always fails: nine numbers cannot be reshaped to three. *)
Theorem C128_sphere_refuted : forall t r a ro tn zo csph, csph <> 0 ->
  involute_func t r a ro tn zo csph = Err ValueError.
Proof.
  intros. unfold involute_func, involute_val. destruct (Req_EM_T csph 0); [contradiction|]. reflexivity.
Qed.

(** A list of parameters is accepted only if it is empty. *)
Theorem C128_list_refuted : forall ts r a ro tn zo csph,
  involute_func_list ts r a ro tn zo csph = (match ts with [] => Ok [] | _ => Err ValueError end).
Proof.
  intros [|t ts] *; [reflexivity|]. unfold involute_func_list. 
  destruct (Req_EM_T csph 0) as [->|n].
  - destruct (C128_plane t r a ro tn zo) as (A & E & _). unfold involute_func in E. rewrite E. reflexivity.
  - pose proof (C128_sphere_refuted t r a ro tn zo csph n) as E. unfold involute_func in E. rewrite E. reflexivity.
Qed.

Example C128_plane_refuted_example : exists A, (2 : R) <> 0 /\ involute_func 1 2 0 0 0 0 0 = Ok (Arr33 A).
Proof. destruct (C128_plane 1 2 0 0 0 0) as (A & E & _). exists A. split; [lra | exact E]. Qed.
Example C128_plane_example : exists A, involute_func 0 2 0 0 0 0 0 = Ok (Arr33 A) /\ columns A = [V 2 2 2; V 0 0 0; V 0 0 0].
Proof.
  destruct (C128_plane 0 2 0 0 0 0) as (A & E & C). exists A. split; [exact E|]. rewrite C. cbn.
  rewrite !Rplus_0_l, cos_0, sin_0.
  apply f_equal2; [apply V_eq; ring|]. apply f_equal2; [apply V_eq; ring|]. apply f_equal2; [apply V_eq; ring|]. reflexivity.
Qed.
Example C128_sphere_refuted_example : (1 / 10 : R) <> 0.
Proof. lra. Qed.
Example C128_list_refuted_example : involute_func_list [0; 1] 2 0 0 0 0 0 = Err ValueError.
Proof. apply C128_list_refuted. Qed.
