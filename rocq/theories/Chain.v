(** src/gggears/curve.py: [CurveChain] (lines 347-690) and [NURBSCurve] (1558-1649).

    A chain object is a value; nested chains share nothing.  [fillet*] is in Fillet.v.  The numpy
    division 0/0 in [get_length_portions] gives nan and no exception; here it is
    [Err ZeroDivisionError]. *)
From Coq Require Import Reals ZArith Lra Lia List Bool.
From Verif Require Import Num Vec Coords Bezier Interp Curve.
Import ListNotations.
Open Scope R_scope.

(** curve.py 347-353: a single curve or a CurveChain. *)
Inductive node : Type :=
| Prim (c : curve)
| Chain (flag : bool) (l : list node).   (* [_active], [curves] *)

(** curve.py 388-390: [np.sum]. *)
Fixpoint lsum (l : list R) : R := match l with [] => 0 | x :: r => x + lsum r end.

(** [CurveChain.active], lines 360-363; for other curves the attribute. *)
Fixpoint n_active (n : node) : bool :=
  match n with
  | Prim c => c_act c
  | Chain a l => a && existsb n_active l
  end.

(** [active.setter], lines 365-367. *)
Definition n_deactivate (n : node) : node :=
  match n with
  | Prim c => Prim (mkCurve (c_shape c) false (c_t0 c) (c_t1 c) (c_ndiv c) (c_length c) (c_ts c) (c_ss c))
  | Chain _ l => Chain false l
  end.

(** [length_array] and [length], lines 383-390. *)
Fixpoint n_length (n : node) : R :=
  match n with
  | Prim c => c_length c
  | Chain _ l => lsum (map (fun m => if n_active m then n_length m else 0) l)
  end.
(** curve.py 383-390. *)
Definition length_array (l : list node) : list R :=
  map (fun m => if n_active m then n_length m else 0) l.

(** [update_lengths], lines 374-377. *)
Fixpoint n_update (n : node) : node :=
  match n with
  | Prim c => Prim (update_lengths c)
  | Chain a l => Chain a (map (fun m => if n_active m then n_update m else m) l)
  end.
(** curve.py 374-377. *)
Definition refresh (m : node) : node := if n_active m then n_update m else m.

(** [CurveChain.__init__], lines 350-353. *)
Definition new_chain (a : bool) (l : list node) : node := n_update (Chain a l).

(** [list.index(True)]. curve.py 400-420. *)
Fixpoint first_true (l : list bool) : option nat :=
  match l with
  | [] => None
  | true :: _ => Some 0%nat
  | false :: r => option_map S (first_true r)
  end.

(** [idx_active_min + 1] and [idx_active_max + 1], lines 400-420. *)
Definition active_min1 (acts : list bool) : nat :=
  match first_true acts with Some k => S k | None => S (length acts) end.
(** curve.py 409-420. *)
Definition active_max1 (acts : list bool) : nat :=
  match first_true (rev acts) with Some k => (length acts - k)%nat | None => 0%nat end.

(** [get_length_portions], lines 459-463 (total nonzero). *)
Definition portions (lens : list R) : list R :=
  0 :: map (fun x => x / lsum lens) (cumsum 0 lens).

(** [get_s_index], lines 426-453. *)
Definition s_index (acts : list bool) (lens : list R) (s : R) : res (nat * R) :=
  let ps := portions lens in
  let idx := searchsorted ps s in
  let idx := if (active_max1 acts <? idx)%nat then active_max1 acts else idx in
  let idx := if (idx <? active_min1 acts)%nat then active_min1 acts else idx in
  if (length ps <=? idx)%nat then Err IndexError
  else if Req_EM_T (lsum lens) 0 then Err ZeroDivisionError
  else
    let a := nth (idx - 1) ps 0 in let b := nth idx ps 0 in
    Ok ((idx - 1)%nat, if Req_EM_T (b - a) 0 then 1 / 2 else (s - a) / (b - a)).
(** curve.py 426-453. *)
Definition get_s_index (l : list node) (s : R) : res (nat * R) :=
  s_index (map n_active l) (length_array l) s.

(** [curve_list_eval] and [__call__], lines 465-475. *)
Fixpoint n_eval (n : node) : R -> res vec :=
  match n with
  | Prim c => fun s => Ok (c_eval c s)
  | Chain _ l =>
      let fs := map n_eval l in
      fun s => bind (get_s_index l s) (fun iu => nth (fst iu) fs (fun _ => Err IndexError) (snd iu))
  end.

(** [get_curves()], lines 477-484. *)
Fixpoint get_curves (n : node) : list curve :=
  match n with
  | Prim c => [c]
  | Chain _ l => flat_map get_curves l
  end.

(** [get_curves(lerp_inactive=True)], lines 486-495, on the flattened list [l] of length [m]:
    position [k] reads its neighbours in the list being rewritten. *)
Definition list_set {A} (l : list A) (k : nat) (x : A) : list A := firstn k l ++ x :: skipn (S k) l.
(** curve.py 486-495: filler for a position past the end, never read. *)
Definition dummy_curve : curve := mkCurve (SLine ORIGIN ORIGIN) false 0 0 2 0 [] [].
(** curve.py 486-495: one step of the loop. *)
Definition lerp_at (l : list curve) (k : nat) : list curve :=
  let m := length l in
  let c := nth k l dummy_curve in
  if c_act c then l
  else list_set l k (line_curve (c_eval (nth ((k + m - 1) mod m) l dummy_curve) 1)
                                (c_eval (nth ((k + 1) mod m) l dummy_curve) 0) false).
(** curve.py 486-495. *)
Definition lerp_inactive (l : list curve) : list curve := fold_left lerp_at (seq 0 (length l)) l.

(** [reverse], lines 542-545. *)
Fixpoint n_reverse (n : node) : node :=
  match n with
  | Prim c => Prim (c_reverse c)
  | Chain a l => Chain a (rev (map n_reverse l))
  end.

(** [set_start_on], lines 580-602; calls on members use the default
    [preserve_inactive_curves=False]. *)
Fixpoint n_set_start (pres : bool) (n : node) : R -> res node :=
  match n with
  | Prim c => fun s => Ok (Prim (set_start_on c s))
  | Chain a l =>
      let fs := map (n_set_start false) l in
      fun s => bind (get_s_index l s) (fun iu =>
        bind (nth (fst iu) fs (fun _ => Err IndexError) (snd iu)) (fun m =>
          Ok (Chain a (map refresh ((if pres then map n_deactivate (firstn (fst iu) l) else [])
                                     ++ m :: skipn (S (fst iu)) l)))))
  end.

(** [set_end_on], lines 604-627. *)
Fixpoint n_set_end (pres : bool) (n : node) : R -> res node :=
  match n with
  | Prim c => fun s => Ok (Prim (set_end_on c s))
  | Chain a l =>
      let fs := map (n_set_end false) l in
      fun s => bind (get_s_index l s) (fun iu =>
        bind (nth (fst iu) fs (fun _ => Err IndexError) (snd iu)) (fun m =>
          Ok (Chain a (map refresh (firstn (fst iu) l ++ m ::
             (if pres then map n_deactivate (skipn (S (fst iu)) l) else []))))))
  end.

(** [set_start_and_end_on], lines 547-578: the second index is taken on the changed chain.
    (For a single curve it is [Curve.set_start_and_end_on].) *)
Definition n_set_start_and_end (pres : bool) (n : node) (s0 s1 : R) : res node :=
  match n with
  | Prim c => Ok (Prim (set_start_and_end_on c s0 s1))
  | Chain a l =>
      bind (get_s_index l s0) (fun iu =>
      bind (nth (fst iu) (map (n_set_start false) l) (fun _ => Err IndexError) (snd iu)) (fun m =>
      let l1 := (if pres then map n_deactivate (firstn (fst iu) l) else []) ++ m :: skipn (S (fst iu)) l in
      bind (get_s_index l1 s1) (fun jv =>
      bind (nth (fst jv) (map (n_set_end false) l1) (fun _ => Err IndexError) (snd jv)) (fun m2 =>
      Ok (Chain a (map refresh (firstn (fst jv) l1 ++ m2 ::
             (if pres then map n_deactivate (skipn (S (fst jv)) l1) else []))))))))
  end.

(** [cut], lines 629-639. *)
Definition n_cut (pres : bool) (n : node) (t : R) : res (node * node) :=
  bind (n_set_start pres n t) (fun c2 =>
  bind (n_set_end pres n t) (fun c1 => Ok (n_update c1, n_update c2))).

(** [continuity_list] and [is_continuous], lines 666-686 (the value of each member is [Ok]). *)
Definition joint_ok (a b : node) : Prop :=
  (exists p q, n_eval a 1 = Ok p /\ n_eval b 0 = Ok q /\ norm (vsub p q) < DELTA / 100) \/
  n_active a = false \/ n_active b = false.

(** ** List operations, lines 497-540, on the list of members with Python indices *)
Definition norm_index (len : nat) (i : Z) : option nat :=
  let j := (if i <? 0 then i + Z.of_nat len else i)%Z in
  if ((0 <=? j) && (j <? Z.of_nat len))%Z then Some (Z.to_nat j) else None.
(** [list.insert] clamps. curve.py 530-532. *)
Definition insert_index (len : nat) (i : Z) : nat :=
  let j := (if i <? 0 then i + Z.of_nat len else i)%Z in
  if (j <? 0)%Z then 0%nat else if (Z.of_nat len <? j)%Z then len else Z.to_nat j.

(** curve.py 522-524. *)
Definition ch_append (l : list node) (x : node) : list node := map refresh (l ++ [x]).
(** curve.py 526-528. *)
Definition ch_extend (l xs : list node) : list node := map refresh (l ++ xs).
(** curve.py 530-532. *)
Definition ch_insert (l : list node) (i : Z) (x : node) : list node :=
  let k := insert_index (length l) i in map refresh (firstn k l ++ x :: skipn k l).
(** curve.py 534-537. *)
Definition ch_pop (l : list node) (i : Z) : res (node * list node) :=
  match norm_index (length l) i with
  | Some k => match nth_error l k with
              | Some x => Ok (x, map refresh (firstn k l ++ skipn (S k) l))
              | None => Err IndexError
              end
  | None => Err IndexError
  end.
(** curve.py 422-424. *)
Definition ch_del_inactive (l : list node) : list node := filter n_active l.

(** A slot of [self.curves] after [__delitem__] (lines 506-507) holds an empty Python list. *)
Inductive slot : Type := SNode (n : node) | SEmptyList.
(** curve.py 506-507. *)
Definition ch_delitem (l : list slot) (i : Z) : res (list slot) :=
  match norm_index (length l) i with
  | Some k => Ok (list_set l k SEmptyList)
  | None => Err IndexError
  end.
(** [active_list], lines 369-372: [[].active] raises AttributeError. *)
Fixpoint slots_active (l : list slot) : res (list bool) :=
  match l with
  | [] => Ok []
  | SNode n :: r => bind (slots_active r) (fun bs => Ok (n_active n :: bs))
  | SEmptyList :: _ => Err AttributeError
  end.

(** ** NURBSCurve: the control points and weights of its members. curve.py 1558-1568. *)
Definition nurbs := list (list vec * list R).

(** [points] and [weights], lines 1570-1574, 1585-1589 ([self.curves[-1]] of an empty chain raises). *)
Definition nb_points (l : nurbs) : list vec :=
  flat_map (fun c => removelast (fst c)) l ++ [last (fst (last l ([], []))) ORIGIN].
(** curve.py 1585-1589. *)
Definition nb_weights (l : nurbs) : list R :=
  flat_map (fun c => removelast (snd c)) l ++ [last (snd (last l ([], []))) 0].

(** [knots], lines 1591-1596. *)
Fixpoint knots_from (k : nat) (l : nurbs) : list nat :=
  match l with
  | [] => [k]
  | c :: r => k :: knots_from (length (fst c) - 1 + k) r
  end.
(** curve.py 1591-1596. *)
Definition nb_knots (l : nurbs) : list nat := knots_from 0 l.

(** Python slice [a[i:j]] for natural numbers. curve.py 1576-1583. *)
Definition slice {A} (l : list A) (i j : nat) : list A := firstn (j - i) (skipn i l).

(** [points.setter], lines 1576-1583. *)
Fixpoint set_points_from (p : list vec) (k : nat) (l : nurbs) : nurbs :=
  match l with
  | [] => []
  | (ps, ws) :: r => (slice p k (k + length ps), ws) :: set_points_from p (length ps - 1 + k) r
  end.
(** curve.py 1576-1583. *)
Definition nb_set_points (l : nurbs) (p : list vec) : res nurbs :=
  if (length p =? length (nb_points l))%nat then Ok (set_points_from p 0 l) else Err ValueError.

(** [from_points], lines 1621-1634 (with weights). *)
Fixpoint nb_from_points (points : list vec) (weights : list R) (knots : list nat) : nurbs :=
  match knots with
  | a :: ((b :: _) as r) => (slice points a (b + 1), slice weights a (b + 1)) :: nb_from_points points weights r
  | _ => []
  end.

(** [enforce_continuity], lines 1598-1612.  [set_last]/[set_first] are the in-place assignments
    [x[-1] = m], [x[0] = m]; [closed] is the value of [self.is_closed] after the loop. *)
Definition set_last {A} (l : list A) (x : A) : list A :=
  match l with [] => [] | _ => removelast l ++ [x] end.
(** curve.py 1598-1612. *)
Definition set_first {A} (l : list A) (x : A) : list A :=
  match l with [] => [] | _ :: r => x :: r end.
(** curve.py 1598-1612: the mean of two points. *)
Definition vmid (a b : vec) : vec := smul (/ 2) (vadd a b).
(** curve.py 1598-1612: one step of the loop. *)
Definition join2 (c d : list vec * list R) : (list vec * list R) * (list vec * list R) :=
  let mp := vmid (last (fst c) ORIGIN) (hd ORIGIN (fst d)) in
  let mw := (last (snd c) 0 + hd 0 (snd d)) / 2 in
  ((set_last (fst c) mp, set_last (snd c) mw), (set_first (fst d) mp, set_first (snd d) mw)).
(** curve.py 1598-1612: the loop. *)
Fixpoint join_from (c : list vec * list R) (l : nurbs) : nurbs :=
  match l with
  | [] => [c]
  | d :: r => fst (join2 c d) :: join_from (snd (join2 c d)) r
  end.
(** curve.py 1598-1612: the loop from its first step. *)
Definition join_all (l : nurbs) : nurbs := match l with [] => [] | c :: r => join_from c r end.
(** curve.py 1598-1612: the joint of the last and the first curve. *)
Definition close_up (l : nurbs) : nurbs :=
  match l with
  | [] => []
  | c :: r =>
      let e := last l c in
      let mp := vmid (last (fst e) ORIGIN) (hd ORIGIN (fst c)) in
      let mw := (last (snd e) 0 + hd 0 (snd c)) / 2 in
      match r with
      | [] => [(set_first (set_last (fst c) mp) mp, set_first (set_last (snd c) mw) mw)]
      | _ => (set_first (fst c) mp, set_first (snd c) mw) ::
             removelast r ++ [(set_last (fst e) mp, set_last (snd e) mw)]
      end
  end.
(** curve.py 1598-1612. *)
Definition nb_enforce (closed : bool) (l : nurbs) : nurbs :=
  if closed then close_up (join_all l) else join_all l.
