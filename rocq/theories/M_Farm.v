(** * Model of wiz/WindFarm.py *)
From Coq Require Import ZArith List Bool String Arith.
From Verif Require Import Num M_Elliptic M_Cylinder M_Turbine.
Import ListNotations.
Local Open Scope num_scope.
Local Notation len := List.length.

Section Farm.
  Context {N : Num}.
  Notation pt := (N * N * N)%type.

  (** Python objects live in a heap; a farm is a list of references (WindFarm.py:11, a subclass of list).
      Simplification: an object that is not a WindTurbine has no content *)
  Inductive obj := OWT (t : turbine N) | OOther.
  (** WindFarm.py:11-17: all the objects of the program *)
  Definition heap := list obj.
  (** WindFarm.py:11-17: the references the list holds *)
  Definition farm := list nat.

  (** WindFarm.py:43, 73, 107-109: assignment of one entry of an array or of one object of the heap *)
  Fixpoint upd {A} (l : list A) (i : nat) (a : A) : list A :=
    match l, i with
    | [], _ => []
    | _ :: l, O => a :: l
    | b :: l, S i => b :: upd l i a
    end.

  (** WindFarm.py:43: the options only_ind=True and no_wake are forced; the
      others are passed through as kwargs *)
  Definition farm_opts (o : opts N) : opts N :=
    {| o_only_ind := true; o_longi := o_longi o; o_tang := o_tang o; o_root := o_root o;
       o_no_wake := o_no_wake o; o_ground := o_ground o; o_Model := o_Model o;
       o_far := o_far o |}.
  (** WindFarm.py:42-46 *)
  Fixpoint farm_loop (h : heap) (f : farm) (o : opts N) (pts : list pt) (u : list pt)
    : heap * result (list pt) :=
    match f with
    | [] => (h, Ok u)
    | i :: f' =>
        match nth_error h i with
        | Some (OWT t) =>
            let '(t', r) := compute_u t (farm_opts o) pts in
            let h' := upd h i (OWT t') in
            match r with
            | Ok v => farm_loop h' f' o pts (fadd u v)
            | Err e => (h', Err e)
            end
        | _ => (h, Err EAttributeError)
        end
    end.
  (** WindFarm.py:24-53 *)
  Definition velocity_field (h : heap) (f : farm) (o : opts N) (U0 : option pt) (pts : list pt)
    : heap * result (list pt) :=
    let '(h', r) := farm_loop h f o pts (fzero pts) in
    (h', let* u := r in
         Ok (match U0 with None => u | Some U => map (fun v => vadd v U) u end)).

  (** Operations that change the content of the list: the constructor
      (WindFarm.py:15-17), append (WindFarm.py:19-22, checked) and the methods
      inherited unchanged from [list]: extend, insert, +=, item assignment. *)
  Inductive farm_op :=
  | OpNew (l : list nat)
  | OpAppend (i : nat)
  | OpExtend (l : list nat)
  | OpInsert (pos : nat) (i : nat)
  | OpIadd (l : list nat)
  | OpSetItem (pos : nat) (i : nat)
  | OpPop (pos : nat).
  (** WindFarm.py:20: isinstance(WT,WindTurbine) *)
  Definition is_wt (h : heap) (i : nat) : bool :=
    match nth_error h i with Some (OWT _) => true | _ => false end.
  (** WindFarm.py:15-22 and Python's list methods *)
  Definition farm_step (h : heap) (f : farm) (op : farm_op) : farm * result unit :=
    match op with
    | OpNew l => (l, Ok tt)
    | OpAppend i => if is_wt h i then (f ++ [i], Ok tt)
                    else (f, Err (EException "Can only append `WindTurbine` objects"))
    | OpExtend l | OpIadd l => (f ++ l, Ok tt)
    | OpInsert p i => (firstn p f ++ i :: skipn p f, Ok tt)
    | OpSetItem p i => if Nat.ltb p (len f) then (upd f p i, Ok tt) else (f, Err EIndexError)
    | OpPop p => if Nat.ltb p (len f) then (firstn p f ++ skipn (S p) f, Ok tt)
                 else (f, Err EIndexError)
    end.

  (** WindFarm.py:62: WT.r_hub *)
  Definition obj_pos (h : heap) (i : nat) : result pt :=
    match nth_error h i with Some (OWT t) => Ok (t_rhub t) | _ => Err EAttributeError end.
  (** WindFarm.py:60-62: layout getter *)
  Definition layout_get (h : heap) (f : farm) : result (list pt) := mapM (obj_pos h) f.
  (** WindFarm.py:70-73 (views of the caller's array are not modelled here: M_Alias.v) *)
  Fixpoint layout_loop (h : heap) (f : farm) (rows : list pt) : heap * result unit :=
    match f, rows with
    | i :: f', p :: rows' =>
        match nth_error h i with
        | Some (OWT t) => layout_loop (upd h i (OWT (update_position t p))) f' rows'
        | _ => (h, Err EAttributeError)
        end
    | _, _ => (h, Ok tt)
    end.
  (** WindFarm.py:68: the test of the second dimension, row by row *)
  Definition row3 (r : list N) : option pt :=
    match r with [a; b; c] => Some (a, b, c) | _ => None end.
  (** WindFarm.py:68 *)
  Fixpoint rows3 (l : list (list N)) : option (list pt) :=
    match l with
    | [] => Some []
    | r :: l => match row3 r, rows3 l with Some p, Some ps => Some (p :: ps) | _, _ => None end
    end.
  (** WindFarm.py:64-73: layout setter; the layout is an array of rows (the format of the message is left out) *)
  Definition layout_set (h : heap) (f : farm) (layout : list (list N)) : heap * result unit :=
    match rows3 layout with
    | Some rows => if Nat.eqb (len rows) (len f) then layout_loop h f rows
                   else (h, Err (EException "Wrong layout shape."))
    | None => (h, Err (EException "Wrong layout shape."))
    end.

  (** WindFarm.py:99-103: state of the loops: counter k and the three arrays *)
  Record grid := { g_k : nat; g_x : list N; g_y : list N; g_z : list N }.
  (** WindFarm.py:106-109, 113-116 *)
  Definition grid_body (nx : nat) (xS : N) (zS : option N) (y : N) (ij : nat * nat) (g : grid)
    : result grid :=
    let '(i, j) := ij in
    let k := S (g_k g) in
    let x := nZ N (Z.of_nat j - Z.of_nat (nx / 2)%nat - 1) * xS in
    match zS with
    | None => Err ETypeError       (* int * None *)
    | Some zS =>
        let z := nZ N (Z.of_nat i - 1) * zS in
        Ok {| g_k := k; g_x := upd (g_x g) (k - 1) x; g_y := upd (g_y g) (k - 1) y;
              g_z := upd (g_z g) (k - 1) z |}
    end.
  (** WindFarm.py:104-109, 111-116: for i in 1..nz: for j in 1..nx: body *)
  Definition grid_pass (nx nz : nat) (xS : N) (zS : option N) (y : N) (g : result grid)
    : result grid :=
    fold_left (fun g i => fold_left (fun g j => let* g := g in grid_body nx xS zS y (i, j) g)
                                    (seq 1 nx) g) (seq 1 nz) g.
  (** WindFarm.py:88-117 *)
  Definition gridLayout (nx : nat) (xS : N) (nz : nat) (zS : option N) (hub : N) (mirror : bool)
    : result (list N * list N * list N) :=
    let ny := if mirror then 2%nat else 1%nat in
    let nWT := (nz * nx * ny)%nat in
    let zeros := repeat (#0) nWT in
    let g := grid_pass nx nz xS zS hub (Ok {| g_k := 0; g_x := zeros; g_y := zeros; g_z := zeros |}) in
    let g := if mirror then grid_pass nx nz xS zS (- hub) g else g in
    let* g := g in Ok (g_x g, g_y g, g_z g).

  (** WindFarm.py:120-135, for any routine [PIb] for the third-kind integral *)
  Definition windfarm_gridlayout_CTconst_gen (PIb : list (N * N) -> list N) (R CT U0 : N) (nx : nat) (xS : N) (nz : nat)
             (zS : option N) (hub : N) (mirror : bool) (pts : list pt) : result (list pt) :=
    let* xyz := gridLayout nx xS nz zS hub mirror in
    let '(xs, ys, zs) := xyz in
    let a := #q(5,10) * (#1 - nsqrt N (#1 - CT)) in
    let gamma_t := - #2 * U0 * a in
    let cyls := map2 (fun xy z => ((fst xy, snd xy, z), [(#0 + gamma_t, #0 + R)]))
                     (map2 pair xs ys) zs in
    Ok (vcs_tang_u_gen PIb (#0) false cyls pts).
  (** WindFarm.py:120-135: the code *)
  Definition windfarm_gridlayout_CTconst := windfarm_gridlayout_CTconst_gen ellipticPiCarlson.
End Farm.
Arguments obj : clear implicits.
Arguments heap : clear implicits.
Arguments grid : clear implicits.
