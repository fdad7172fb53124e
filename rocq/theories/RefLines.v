(** Reference circles of a gear and reference lines of a rack: gggears_core.py 134-193,
    RackRefLines of gggears_base_classes.py 400-436. *)
From Coq Require Import Reals List ZArith Lra.
From Verif Require Import Num Vec Transform Params Coords Interp Curve World.
Import ListNotations.
Open Scope R_scope.

(** core 145-153: a point of the x axis, moved along the cone by [h]; [ca], [br] are the parameters
    of the GearPolarTransform. *)
Definition ref_point (ca br rp h : R) : vec :=
  inverse_polar_transform ca br (vadd (polar_transform ca br (smul rp RIGHT)) (V h 0 0)).
(** core 155-166: a full circle through a point, about the z axis. *)
Definition ref_circle (p : vec) : curve :=
  from_point_center_angle p (smul (vz p) OUT) (2 * PI) OUT true.

(** GearRefCircles (base_classes 343-397). *)
Record ref_circles : Type := mkRC { rc_a : curve; rc_p : curve; rc_d : curve; rc_o : curve }.
(** core 134-167: generate_reference_circles. *)
Definition generate_reference_circles (rp ha hd ho ca br : R) : ref_circles :=
  let h_o := if Rlt_dec (rp - DELTA) ho then rp - DELTA else ho in
  mkRC (ref_circle (ref_point ca br rp ha)) (ref_circle (smul rp RIGHT))
       (ref_circle (ref_point ca br rp (- hd))) (ref_circle (ref_point ca br rp (- h_o))).

(** ** Rack lines: NumPy arrays are cells of a store; UP and DOWN of defs.py are the cells 0 and 1. *)
Record rack_lines : Type := mkRL {
  rl_a : nat * nat; rl_p : nat * nat; rl_d : nat * nat; rl_o : nat * nat }.
(** gggears_core.py 170-189 and gggears_base_classes.py 400-436: the arrays in memory and the objects holding references to them. *)
Record rstore : Type := mkRS { rs_cells : list vec; rs_racks : list rack_lines }.
(** defs.py 36-39: the module level arrays UP and DOWN. *)
Definition rs_init : rstore := mkRS [UP; DOWN] [].
(** gggears_base_classes.py 400-436: reading an array. *)
Definition cell (s : rstore) (i : nat) : vec := nth i (rs_cells s) ORIGIN.

(** core 170-193: generate_reference_lines.  The pitch line stores UP and DOWN themselves; the
    others store new arrays. *)
Definition new_rack_lines (s : rstore) (ha hd ho : R) : rstore :=
  let n := length (rs_cells s) in
  let up := cell s 0 in
  mkRS (rs_cells s ++
        [vadd up (smul ha RIGHT); vadd up (smul ha RIGHT);
         vsub up (smul hd RIGHT); vsub up (smul hd RIGHT);
         vsub up (smul ho RIGHT); vsub up (smul ho RIGHT)])
       (rs_racks s ++ [mkRL (n, n + 1)%nat (0, 1)%nat (n + 2, n + 3)%nat (n + 4, n + 5)%nat]).

(** base_classes 422-425: the centre of the pitch line. *)
Definition rl_center (s : rstore) (r : rack_lines) : vec :=
  smul (/ 2) (vadd (cell s (fst (rl_p r))) (cell s (snd (rl_p r)))).
(** [x += diff] on an array. gggears_base_classes.py 426-436. *)
Definition iadd (cells : list vec) (i : nat) (d : vec) : list vec :=
  set_nth i (vadd (nth i cells ORIGIN) d) cells.
(** base_classes 427-436: the centre setter, eight in-place additions. *)
Definition set_center (s : rstore) (r : rack_lines) (v : vec) : rstore :=
  let diff := vsub v (rl_center s r) in
  mkRS (fold_left (fun c i => iadd c i diff)
          [fst (rl_a r); snd (rl_a r); fst (rl_p r); snd (rl_p r);
           fst (rl_d r); snd (rl_d r); fst (rl_o r); snd (rl_o r)] (rs_cells s))
       (rs_racks s).

(** gggears_core.py 170-189, gggears_base_classes.py 426-436: the calls a program can make. *)
Inductive rack_op : Type := NewLines (ha hd ho : R) | SetCenter (i : nat) (v : vec).
(** gggears_core.py 170-189, gggears_base_classes.py 426-436. *)
Definition rack_step (s : rstore) (o : rack_op) : rstore :=
  match o with
  | NewLines ha hd ho => new_rack_lines s ha hd ho
  | SetCenter i v => match nth_error (rs_racks s) i with Some r => set_center s r v | None => s end
  end.
(** gggears_core.py 170-189, gggears_base_classes.py 426-436: a sequence of calls. *)
Definition rack_run (s : rstore) (l : list rack_op) : rstore := fold_left rack_step l s.
