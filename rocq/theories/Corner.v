(** The cost function of calc_tangent_arc's method MINDISTANCE. *)
From Coq Require Import Reals.
From Verif Require Import Num Vec Curve Chain Fillet.
Open Scope R_scope.

(** curve.py 978-982: cost_fun2, as a function of the places [t1] and [t2]. The rest of calc_tangent_arc (989-995) is the
    same for both methods, so that [calc_tangent_arc] of Fillet.v with the answer of [minimize] for [fs_tan] is the
    function with this method. *)
Definition tangent_cost2 (n1 n2 : node) (radius t1 t2 : R) : res R :=
  bind (calc_centers n1 n2 radius t1 t2) (fun c => Ok (dot (vsub (fst c) (snd c)) (vsub (fst c) (snd c)))).
