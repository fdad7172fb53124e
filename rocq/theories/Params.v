(** Model of the recipe mixin and parameter classes of
    src/gggears/gggears_base_classes.py (lines 14-44, 257-343, 439-482) and of the default
    recipe in src/gggears/gggears_core.py (822-848). *)
From Coq Require Import Reals Lra List ZArith String.
From Verif Require Import Num Vec Transform.
Import ListNotations.
Open Scope R_scope.

(** ** Recipes: ZFunctionMixin (28-44) *)

(** A field of a parameter object: a plain value, a function of z, a nested recipe object
    (instances of ZFunctionMixin are callable), or a plain dict (not callable).
    [D] is the type of plain values. gggears_base_classes.py 14-44. *)
Inductive field (D : Type) : Type :=
| FConst (d : D)
| FFun (f : R -> D)
| FRec (r : list (string * field D))
| FDict (d : list (string * field D)).
Arguments FConst {D} d.
Arguments FFun {D} f.
Arguments FRec {D} r.
Arguments FDict {D} d.

(** The attribute dictionary [self.__dict__]. gggears_base_classes.py 28-44. *)
Definition dict (D : Type) := list (string * field D).

(** gggears_base_classes.py 22-26: one entry of eval_callables.  A callable value is
    replaced by [value(z)]; for a nested recipe that is its own evaluated copy (36-44). *)
Fixpoint eval_field {D} (z : R) (v : field D) : field D :=
  match v with
  | FConst d => FConst d
  | FFun f => FConst (f z)
  | FRec r => FRec (map (fun kv => (fst kv, eval_field z (snd kv))) r)
  | FDict d => FDict d
  end.

(** 22-26: eval_callables. *)
Definition eval_callables {D} (d : dict D) (z : R) : dict D :=
  map (fun kv => (fst kv, eval_field z (snd kv))) d.

(** 14-19: make_callables (recurses into plain dicts, wraps constants). *)
Fixpoint make_callable {D} (v : field D) : field D :=
  match v with
  | FConst d => FFun (fun _ => d)
  | FDict d => FDict (map (fun kv => (fst kv, make_callable (snd kv))) d)
  | FFun f => FFun f
  | FRec r => FRec r
  end.
(** gggears_base_classes.py 14-19. *)
Definition make_callables {D} (d : dict D) : dict D :=
  map (fun kv => (fst kv, make_callable (snd kv))) d.

(** 36-44: ZFunctionMixin.__call__ on a store of objects: the attribute dict is copied
    (a new object at the end of the store) and evaluated there. *)
Definition store (D : Type) := list (dict D).
(** gggears_base_classes.py 36-44: assignment in a store. *)
Definition upd_nth {A} (n : nat) (a : A) (l : list A) : list A :=
  firstn n l ++ match skipn n l with [] => [] | _ :: t => a :: t end.
(** gggears_base_classes.py 36-44. *)
Definition zcall {D} (h : store D) (i : nat) (z : R) : nat * store D :=
  let dict_vals := nth i h [] in
  let j := List.length h in
  let h1 := (h ++ [dict_vals])%list in
  (j, upd_nth j (eval_callables (nth j h1 []) z) h1).

(** ** GearToothParam (257-303) *)
Record tooth_param : Type := mkTP { num_teeth : R; num_cutout : R; inside_teeth : bool }.

(** dataclass construction followed by __post_init__ (291-294). *)
Definition tp_make (n cut : R) (inside : bool) : tooth_param :=
  if Rlt_dec n 0 then mkTP (n * -1) cut (negb inside) else mkTP n cut inside.

(** 296-299: num_teeth_act. *)
Definition num_teeth_act (p : tooth_param) : Z := floorZ (num_teeth p - num_cutout p).
(** 301-304: pitch_angle. *)
Definition tp_pitch_angle (p : tooth_param) : R := 2 * PI / num_teeth p.

(** ** ConicData (439-482) *)
Record conic : Type := mkC { cone_angle : R; base_radius : R; c_trf : transform }.
(** gggears_base_classes.py 449-451. *)
Definition gamma (c : conic) : R := cone_angle c / 2.
(** gggears_base_classes.py 453-455. *)
Definition c_height (c : conic) : R := base_radius c / tan (gamma c) * t_scale (c_trf c).
(** gggears_base_classes.py 457-462. *)
Definition c_center (c : conic) : vec :=
  apply_transform (smul (/ tan (gamma c)) (smul (base_radius c) OUT)) (c_trf c).
(** gggears_base_classes.py 464-467. *)
Definition c_center_base (c : conic) : vec := apply_transform ORIGIN (c_trf c).
(** gggears_base_classes.py 469-478. *)
Definition c_R (c : conic) : R := Rabs (base_radius c / sin (gamma c) * t_scale (c_trf c)).

(** ** Default recipe, gggears_core.py 822-848: transform of the slice at height z and
    the cone of the slice. *)
Definition default_slice (N cone : R) (z : R) : gtransform :=
  let g := cone / 2 in
  mkG (smul (cos g) (smul (1 * z) OUT)) UNIT3X3 (1 * (1 - z * 2 * sin g / N)) 0.

(** gggears_core.py 997-1003: Gear.cone_at_z with the default recipe. *)
Definition cone_at_z (T : gtransform) (N cone : R) (z : R) : conic :=
  mkC cone (N / 2) (g_base (g_mul T (default_slice N cone z))).

(** gggears_core.py 953-955 (rp), 957-959 (R), 973-978 (center_sphere) of Gear, with the
    recipe cone at z = 0 (default transform, so scale 1). *)
Definition gear_rp (N module : R) : R := N / 2 * module.
(** gggears_core.py 957-959. *)
Definition gear_R (N cone module : R) : R := c_R (mkC cone (N / 2) t_default) * module.
(** gggears_core.py 973-978. *)
Definition gear_center_sphere (T : gtransform) (N cone module : R) : vec :=
  vadd (g_center T) (smul (gear_R N cone module * cos (cone / 2)) (g_z_axis T)).
