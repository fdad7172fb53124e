(** Gear objects, their recipes and their tooth generators as objects in memory: gggears_base_classes.py 29-45
    (ZFunctionMixin), 485-496 and 531-543 (the constructors of the generators); gggears_core.py 116-131, 599-650,
    798-820, 851-946 (gear_recipe_from_curve, Gear.__init__), 980-981 (curve_gen_at_z), 1017-1028 (copy,
    swap_tooth_generator).

    An object is a number; a heap says what each number stands for.  The attributes of a generator that neither
    gear_recipe_from_curve nor swap_tooth_generator touches (ref_limits, pressure_angle, pitch_angle, the cycloid
    coefficients) are part of its [kind].  A reference curve that the constructor cannot scale (z_vals of height 0)
    is not told apart. *)
From Coq Require Import Reals List Lra Bool Arith.
From Verif Require Import Num Vec Transform Params Coords GearMath Curve Chain RefLines Profile Fillet Recipe Teeth.
Open Scope R_scope.

(** An attribute is a number or a function of z, gggears_base_classes.py 23-27 (eval_callables). *)
Inductive attr : Type := Fixed (x : R) | Along (f : R -> R).
(** gggears_base_classes.py 23-27. *)
Definition attr_at (a : attr) (z : R) : R := match a with Fixed x => x | Along f => f z end.

(** The class of a generator with the attributes that stay: does its constructor take [cone_angle]
    (gggears_base_classes.py 531-538; not so for GearToothGenerator itself, 486-492), and generate_tooth_curve as a
    function of pitch_radius, pitch_intersect_angle and cone_angle. *)
Record kind : Type := mkKind { kd_conic : bool; kd_curve : R -> R -> R -> res node }.
(** A generator object.  [gn_cone] is [None] when the object has no attribute cone_angle: the constructor of
    GearToothGenerator itself makes none, all the others do. *)
Record gen : Type := mkGen { gn_kind : kind; gn_rp : attr; gn_pia : attr; gn_cone : option attr }.
(** GearProfileRecipe, gggears_core.py 786-820: the generator is a reference. *)
Record recipe : Type := mkRec { rc_gen : nat; rc_cone : attr; rc_base : R; rc_ha : R; rc_hd : R; rc_ho : R;
  rc_tip : R; rc_root : R; rc_red : R; rc_pitch : R; rc_trf : R -> gtransform }.
(** Gear, gggears_core.py 914-946: tooth_generator and shape_recipe are references. *)
Record obj : Type := mkObj { ob_gen : nat; ob_rec : nat }.
(** The heap (no single line): the contents, and the first number not in use. *)
Record heap : Type := mkHeap { h_gen : nat -> gen; h_rec : nat -> recipe; h_obj : nat -> obj;
  h_ng : nat; h_nr : nat; h_no : nat }.

(** Assignment (no single line). *)
Definition upd {A} (f : nat -> A) (i : nat) (x : A) (j : nat) : A := if Nat.eqb j i then x else f j.
(** A new generator (no single line). *)
Definition add_gen (h : heap) (g : gen) : heap :=
  mkHeap (upd (h_gen h) (h_ng h) g) (h_rec h) (h_obj h) (S (h_ng h)) (h_nr h) (h_no h).
(** A new recipe (no single line). *)
Definition add_rec (h : heap) (r : recipe) : heap :=
  mkHeap (h_gen h) (upd (h_rec h) (h_nr h) r) (h_obj h) (h_ng h) (S (h_nr h)) (h_no h).
(** A new Gear (no single line). *)
Definition add_obj (h : heap) (o : obj) : heap :=
  mkHeap (h_gen h) (h_rec h) (upd (h_obj h) (h_no h) o) (h_ng h) (h_nr h) (S (h_no h)).
(** Assignment to attributes of a generator (no single line). *)
Definition set_gen (h : heap) (i : nat) (g : gen) : heap :=
  mkHeap (upd (h_gen h) i g) (h_rec h) (h_obj h) (h_ng h) (h_nr h) (h_no h).
(** Assignment to attributes of a recipe (no single line). *)
Definition set_rec (h : heap) (i : nat) (r : recipe) : heap :=
  mkHeap (h_gen h) (upd (h_rec h) i r) (h_obj h) (h_ng h) (h_nr h) (h_no h).
(** Assignment to attributes of a Gear (no single line). *)
Definition set_obj (h : heap) (i : nat) (o : obj) : heap :=
  mkHeap (h_gen h) (h_rec h) (upd (h_obj h) i o) (h_ng h) (h_nr h) (h_no h).

(** ZFunctionMixin.__call__ on a generator, gggears_base_classes.py 36-45: the evaluated attributes go to the
    constructor, which refuses [cone_angle] when its class is GearToothGenerator.  The result: pitch radius,
    intersect angle, cone angle (0 when there is none). *)
Definition gen_call (g : gen) (z : R) : res (R * R * R) :=
  match kd_conic (gn_kind g), gn_cone g with
  | true, Some c => Ok (attr_at (gn_rp g) z, attr_at (gn_pia g) z, attr_at c z)
  | false, None => Ok (attr_at (gn_rp g) z, attr_at (gn_pia g) z, 0)
  | false, Some _ => Err TypeError
  | true, None => Err AttributeError
  end.

(** [gear.shape_recipe(z).tooth_generator] and its three attributes, 36-45. *)
Definition pitch_data (h : heap) (o : nat) (z : R) : res (R * R * R) :=
  gen_call (h_gen h (rc_gen (h_rec h (ob_rec (h_obj h o))))) z.

(** gggears_core.py 980-981 and 599-650: curve_gen_at_z. *)
Definition profile_at (sv : solver) (fs : fsolver) (h : heap) (o : nat) (z : R) : res profile :=
  let r := h_rec h (ob_rec (h_obj h o)) in
  let g := h_gen h (rc_gen r) in
  bind (gen_call g z) (fun v => match v with (rp, pia, ca) =>
  bind (kd_curve (gn_kind g) rp pia ca) (fun tooth =>
  generate_reference_profile sv fs tooth rp (rc_ha r) (rc_hd r) (rc_ho r) (attr_at (rc_cone r) z) (rc_base r)
    (rc_tip r) (rc_root r) (rc_red r) (rc_pitch r) (rc_trf r z)) end).

(** gggears_base_classes.py 531-543 with its default arguments: GearToothConicGenerator(). *)
Definition conic_gen : gen :=
  mkGen (mkKind true (fun rp pia ca => Ok (default_tooth rp pia 0 ca))) (Fixed 1) (Fixed (PI / 16))
    (Some (Fixed (PI / 4))).

(** gggears_core.py 882 and 937-939: the cone angle put into the generator and the recipe. *)
Definition cone_attr (N gam L : R) : attr :=
  if Req_EM_T gam 0 then Fixed 0
  else Along (curve_cone_angle DELTA (gear_ref_curve N gam L) (gear_scaler L)).

(** gggears_core.py 880-893 with 926-939: the assignments to the generator [i] and the new recipe. *)
Definition recipe_from_curve (h : heap) (tp : tooth_param) (gam L : R) (i : nat) : heap :=
  let N := num_teeth tp in
  let c := cone_attr N gam L in
  let h := set_gen h i (mkGen (gn_kind (h_gen h i)) (Fixed (N / 2)) (Fixed (2 * PI / N / 4)) (Some c)) in
  add_rec h (mkRec i c (N / 2) 1 (6 / 5) 2 0 0 0 (tp_pitch_angle tp)
               (curve_slice N (gear_ref_curve N gam L) (gear_scaler L))).

(** gggears_core.py 904-946: Gear(z_vals, tooth_param=tp, tooth_generator=tg, shape_recipe=rec, cone=...) with
    [gam = cone.gamma] and [L = z_vals[-1] - z_vals[0]].  The result: the heap and the Gear. *)
Definition gear_new (h : heap) (tp : tooth_param) (gam L : R) (tg rec : option nat) : heap * nat :=
  let i := match tg with Some i => i | None => h_ng h end in
  let h := match tg with Some _ => h | None => add_gen h conic_gen end in
  let h1 := match rec with Some _ => h | None => recipe_from_curve h tp gam L i end in
  let r := match rec with Some r => r | None => h_nr h end in
  (add_obj h1 (mkObj i r), h_no h1).

(** gggears_core.py 1020-1028: swap_tooth_generator.  The deep copy of a generator is a new object with the same
    attributes; functions are not copied. *)
Definition swap_tooth_generator (h : heap) (o tg : nat) : res heap :=
  let ri := ob_rec (h_obj h o) in
  let r := h_rec h ri in
  let cur := h_gen h (rc_gen r) in
  match gn_cone cur with
  | None => Err AttributeError
  | Some c =>
    let n := h_ng h in
    let h1 := add_gen h (mkGen (gn_kind (h_gen h tg)) (gn_rp cur) (gn_pia cur) (Some c)) in
    let h2 := set_obj h1 o (mkObj n ri) in
    Ok (set_rec h2 ri (mkRec n (rc_cone r) (rc_base r) (rc_ha r) (rc_hd r) (rc_ho r) (rc_tip r) (rc_root r)
                         (rc_red r) (rc_pitch r) (rc_trf r)))
  end.

(** gggears_core.py 1017-1018: copy.  An object that the Gear reaches in two ways is copied once. *)
Definition gear_copy (h : heap) (o : nat) : heap * nat :=
  let ob := h_obj h o in
  let r := h_rec h (ob_rec ob) in
  let n := h_ng h in
  let h1 := add_gen h (h_gen h (ob_gen ob)) in
  let h2 := if Nat.eqb (rc_gen r) (ob_gen ob) then h1 else add_gen h1 (h_gen h (rc_gen r)) in
  let m := if Nat.eqb (rc_gen r) (ob_gen ob) then n else S n in
  let h3 := add_rec h2 (mkRec m (rc_cone r) (rc_base r) (rc_ha r) (rc_hd r) (rc_ho r) (rc_tip r) (rc_root r)
                          (rc_red r) (rc_pitch r) (rc_trf r)) in
  (add_obj h3 (mkObj n (h_nr h)), h_no h).
