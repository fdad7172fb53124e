(** Model of the Bezier / rational Bezier functions of src/gggears/function_generators.py
    (lines 308-545).  The Python functions work on arrays of shape (n, ...); here an array of
    control points is a list over any type with zero, sum and scalar product (reals for weight
    arrays, [vec] for point arrays).  Array-valued parameters [t] are evaluated entry by entry
    in Python, so the model takes one [t]. *)
From Coq Require Import Reals Lra List Lia.
From Verif Require Import Num Vec Coords.
Import ListNotations.
Open Scope R_scope.

(** NumPy arithmetic used by the Bezier code: zeros, +, scalar *. Operations only, no laws. *)
Class Lin (A : Type) := { lz : A; ladd : A -> A -> A; lsc : R -> A -> A }.
#[export] Instance Lin_R : Lin R := {| lz := 0; ladd := Rplus; lsc := Rmult |}.
#[export] Instance Lin_vec : Lin vec := {| lz := ORIGIN; ladd := vadd; lsc := smul |}.

(** comb(n, k) (scipy.special.comb / math.comb) by Pascal's rule. function_generators.py 308-322 (the [comb] calls). *)
Fixpoint binom (n k : nat) : nat :=
  match n, k with
  | _, O => 1
  | O, S _ => 0
  | S n', S k' => binom n' k' + binom n' (S k')
  end.

(** One coefficient comb(d,k) * t**k * (1-t)**(d-k). *)
Definition bern (d k : nat) (t : R) : R := INR (binom d k) * t ^ k * (1 - t) ^ (d - k).

Section Poly.
  Context {A : Type} `{Lin A}.

  (** 308-315: bezier (Bernstein form, accumulating loop). *)
  Definition bezier (t : R) (pts : list A) : A :=
    let n := length pts in let d := (n - 1)%nat in
    fold_left (fun out k =>
       ladd out (lsc ((1 - t) ^ (d - k)) (lsc (t ^ k) (lsc (INR (binom d k)) (nth k pts lz)))))
      (seq 0 n) lz.

  (** (1 - t) * a + t * b. *)
  Definition lerp2 (t : R) (a b : A) : A := ladd (lsc (1 - t) a) (lsc t b).

  (** 351: points2 = (1-t)*points2[:-1] + t*points2[1:]. *)
  Fixpoint dc_step (t : R) (l : list A) : list A :=
    match l with
    | a :: r => match r with
                | b :: _ => lerp2 t a b :: dc_step t r
                | [] => []
                end
    | [] => []
    end.

  (** function_generators.py 349-352: the loop of bezierdc. *)
  Fixpoint iter_step (t : R) (n : nat) (l : list A) : list A :=
    match n with O => l | S n' => iter_step t n' (dc_step t l) end.

  (** 325-356: bezierdc, de Casteljau. For an empty array the Python squeeze fails; callers that
      can reach that case check it separately (see [bezier_diff_t]). *)
  Definition bezierdc (t : R) (pts : list A) : A :=
    hd lz (iter_step t (length pts - 1) pts).

  (** diffpoints[1:] - diffpoints[:-1], scaled: 388. *)
  Fixpoint diff_step (c : R) (l : list A) : list A :=
    match l with
    | a :: r => match r with
                | b :: _ => lsc c (ladd b (lsc (-1) a)) :: diff_step c r
                | [] => []
                end
    | [] => []
    end.

  (** the loop 387-388: for k in range(n): diffpoints = (d-k-1)*(...). [k0] counts up. *)
  Fixpoint diff_loop (d : nat) (n k0 : nat) (l : list A) : list A :=
    match n with
    | O => l
    | S n' => diff_loop d n' (S k0) (diff_step (INR d - INR k0 - 1) l)
    end.

  (** 382-391: bezier_diff_t for one entry of an array t.  [inr] is the zero array of shape
      points.shape that the early return produces for every entry. *)
  Definition bezier_diff_t (t : R) (pts : list A) (n : nat) : res (A + list A) :=
    let d := length pts in
    if Nat.ltb d n then Ok (inr (repeat lz d))
    else match diff_loop d n 0 pts with
         | [] => Err ValueError   (* squeeze(1) of an axis of length 0 *)
         | l => Ok (inl (bezierdc t l))
         end.
End Poly.

(** points * weights.reshape(n, 1). *)
Fixpoint wpoints (pts : list vec) (ws : list R) : list vec :=
  match pts, ws with
  | p :: ps, w :: ws' => smul w p :: wpoints ps ws'
  | _, _ => []
  end.

(** 369-379: nurbezier. *)
Definition nurbezier (t : R) (pts : list vec) (ws : list R) : vec :=
  smul (/ bezierdc t ws) (bezierdc t (wpoints pts ws)).

(** 394-424: nurbezier_diff_t. *)
Definition nurbezier_diff_t (t : R) (pts : list vec) (ws : list R) : vec :=
  let n := length pts in
  let wp := wpoints pts ws in
  let diffpoints := diff_step (INR n - 1) wp in
  let diffweights := diff_step (INR n - 1) ws in
  let points_bez := bezierdc t wp in
  let weights_bez := bezierdc t ws in
  smul (/ (weights_bez * weights_bez))
    (vsub (smul weights_bez (bezierdc t diffpoints))
          (smul (bezierdc t diffweights) points_bez)).

(** array with a single 1 at position k (438-439). *)
Definition unit_arr (n k : nat) : list R := map (fun i => if Nat.eqb i k then 1 else 0) (seq 0 n).

(** 427-444: bezier_diff_p. *)
Definition bezier_diff_p (t : R) (n : nat) : list R :=
  map (fun k => bezierdc t (unit_arr n k)) (seq 0 n).

(** 447-463: nurbezier_diff_points, entry k. *)
Definition nurbezier_diff_points (t : R) (n : nat) (ws : list R) (k : nat) : R :=
  nth k (bezier_diff_p t n) 0 * nth k ws 0 / bezierdc t ws.

(** 466-493: nurbezier_diff_weights, entry k (a vector over the point coordinates). *)
Definition nurbezier_diff_weights (t : R) (pts : list vec) (ws : list R) (k : nat) : vec :=
  let n := length pts in
  let nb := nurbezier t pts ws in
  let dp := nth k (bezier_diff_p t n) 0 in
  let bw := bezierdc t ws in
  vsub (smul (/ bw) (smul dp (nth k pts ORIGIN))) (smul (dp / bw) nb).

(** 496-511: nurbezier_surface; rows are (points, weights). *)
Definition nurbezier_surface (u v : R) (pts : list (list vec)) (ws : list (list R)) : vec :=
  let q := map (fun pw => nurbezier v (fst pw) (snd pw)) (combine pts ws) in
  let qw := map (fun w => bezier v w) ws in
  nurbezier u q qw.

(** 318-322: bezier_coeff. *)
Definition bezier_coeff (t : R) (n : nat) : list R :=
  map (fun k => INR (binom (n - 1) k) * t ^ k * (1 - t) ^ (n - 1 - k)) (seq 0 n).

(** function_generators.py 514-525: [np.sum] over one axis. *)
Definition sum_R (l : list R) : R := fold_right Rplus 0 l.
(** function_generators.py 514-525: [np.sum] over one axis. *)
Definition sum_vec (l : list vec) : vec := fold_right vadd ORIGIN l.

(** 514-525: nurbezier_surface_2; np.ndindex is the row-major double loop. *)
Definition nurbezier_surface_2 (u v : R) (pts : list (list vec)) (ws : list (list R)) : vec :=
  let n := length pts in
  let m := length (hd [] pts) in
  let cn := bezier_coeff u n in
  let cm := bezier_coeff v m in
  let idx := list_prod (seq 0 n) (seq 0 m) in
  let w ij := nth (snd ij) (nth (fst ij) ws []) 0 in
  let p ij := nth (snd ij) (nth (fst ij) pts []) ORIGIN in
  let weights_bezier := map (fun ij => w ij * nth (fst ij) cn 0 * nth (snd ij) cm 0) idx in
  let parts := map (fun ij => smul (nth (snd ij) cm 0) (smul (nth (fst ij) cn 0) (smul (w ij) (p ij)))) idx in
  smul (/ sum_R weights_bezier) (sum_vec parts).

(** 528-541: calc_nurbezier_arc. *)
Definition calc_nurbezier_arc (p0 p2 center : vec) : list vec * list R :=
  let pmid := smul (/ 2) (vadd p0 p2) in
  let h := angle_between (vsub p0 center) (vsub p2 center) / 2 in
  let radius := (norm (vsub p0 center) + norm (vsub p2 center)) / 2 in
  let p1 := vadd (smul radius (smul (sin h * sin h / cos h + cos h)
                                    (normalize (vsub pmid center)))) center in
  ([p0; p1; p2], [1; cos h; 1]).

(** 544-545: calc_quadratic_bezier_interp. *)
Definition calc_quadratic_bezier_interp (p0 p1 p2 : vec) : list vec :=
  [p0; vsub (vsub (smul 4 p1) p0) p2; p2].
