(** * Model of the loading arrays a turbine shares with its caller (wiz/WindTurbine.py:123-189)

    With nCyl=None update_loading stores the arrays it is given, not copies of them: self.r=r and self.Ct=Ct
    (WindTurbine.py:188-189), and self.gamma_t is whatever gamma_t_Ct returns (WindTurbine.py:172), which may be the array
    passed to it or another array of the program.  With nCyl given, r, Ct and Gamma are new arrays (WindTurbine.py:144-157).
    M_Turbine gives these attributes value semantics; here they are references into the program's arrays.
    Simplifications: the arrays are one-dimensional and passed whole; the vectors (hub, wind, ...) are passed by value (their
    sharing is modelled in M_Alias); the program does not write through the attributes of the turbine. *)
From Coq Require Import ZArith List Bool String Arith.
From Verif Require Import Num M_Turbine M_Farm.
Import ListNotations.
Local Open Scope num_scope.
Local Notation len := List.length.

Section AliasLoad.
  Context {N : Num}.
  Notation pt := (N * N * N)%type.

  (** WindTurbine.py:172: what the function gamma_t_Ct may return: the array it was given, a new array, another array of the program *)
  Inductive ret := RSame | RNew (l : list N) | RArr (b : nat).
  (** A WindTurbine object: its attributes, and the arrays of the program that self.r, self.Ct and self.gamma_t are
      (WindTurbine.py:172,188,189); None: the array is the library's own, and the field of [l_t] holds its contents *)
  Record lcell := { l_t : turbine N; l_r : option nat; l_c : option nat; l_g : option nat }.
  (** The program state: its arrays, and the objects *)
  Record lworld := { lw_arr : list (list N); lw_wt : list lcell }.

  (** numpy: the contents of an attribute *)
  Definition attr (arrs : list (list N)) (ref : option nat) (own : option (list N)) : option (list N) :=
    match ref with Some b => Some (nth b arrs []) | None => own end.
  (** WindTurbine.py:172,188,189: what reading the attributes of the object gives *)
  Definition lsee (arrs : list (list N)) (c : lcell) : turbine N :=
    let t := l_t c in
    mkT (t_R t) (t_rhub t) (t_shaft t) (t_shaft0 t) (t_vert t) (t_horz t) (t_TF2g t) (t_Tc2wt t)
        (t_Twt2g t) (t_yaw t) (t_U0 t) (attr arrs (l_r c) (t_r t)) (attr arrs (l_g c) (t_gt t)) (t_gl t) (t_Gr t) (t_Lambda t)
        (t_ground t) (t_chi t) (t_model t)
        (match l_c c with Some b => Some (Some (nth b arrs [])) | None => t_Ct t end) (t_name t).

  (** What the program may do.  [minim]: see M_Solver.  Arrays are named by number *)
  Inductive lop :=
  | LNew (R : N) (hub shaft vert wind : pt) (Lambda : option N) (name : string) (Ground : bool) (Model : string)
      (** WindTurbine.py:61 *)
  | LPos (i : nat) (p : pt)                     (** WindTurbine.py:117 *)
  | LWind (i : nat) (p : pt)                    (** WindTurbine.py:120 *)
  | LYaw (i : nat) (yaw : N)                    (** WindTurbine.py:108 *)
  | LChi (i : nat) (chi : N)                    (** WindTurbine.py:243 *)
  | LCompute (i : nat) (o : opts N) (pts : list pt)  (** WindTurbine.py:246 *)
  | LLoad (i : nat) (minim : (N -> N) -> N -> N -> N) (r Ct Gamma : option nat) (Lambda : option N)
          (nCyl : option nat) (f : option (list N -> result ret))   (** WindTurbine.py:123 *)
  | LArray (l : list N)                         (** the program creates an array *)
  | LWrite (b k : nat) (x : N).                 (** the program writes one entry of its array *)

  (** numpy: the contents of an argument *)
  Definition arr_val (arrs : list (list N)) (a : option nat) : option (list N) := option_map (fun b => nth b arrs []) a.
  (** WindTurbine.py:172: the contents of the array returned; NameError in the user's function if there is no such array *)
  Definition cb_val (arrs : list (list N)) (f : list N -> result ret) : list N -> result (list N) := fun c =>
    match f c with
    | Ok RSame => Ok c
    | Ok (RNew l) => Ok l
    | Ok (RArr b) => if Nat.ltb b (len arrs) then Ok (nth b arrs []) else Err (ENameError "")
    | Err e => Err e
    end.
  (** WindTurbine.py:172: which array of the program self.gamma_t is after the assignment *)
  Definition cb_ref (R : N) (r Ct Gamma : option (list N)) (nCyl : option nat) (Ctb : option nat) (f : option (list N -> result ret)) : option nat :=
    match f, load_interp R r Ct Gamma nCyl with
    | Some f, Ok (_, Some c, _) =>
        match f c with
        | Ok RSame => match nCyl with None => Ctb | Some _ => None end
        | Ok (RArr b) => Some b
        | _ => None
        end
    | _, _ => None
    end.
  (** Python: an array that does not exist cannot be named *)
  Definition lknown (arrs : list (list N)) (a : option nat) : bool := match a with None => true | Some b => Nat.ltb b (len arrs) end.
  (** WindTurbine.py:123-189 on an object; after an exception the attributes are those of before (the exceptions precede the assignments) *)
  Definition load_cell (arrs : list (list N)) minim r Ct Gamma Lambda nCyl f (c : lcell) : lcell :=
    let t := lsee arrs c in
    let '(t', res) := update_loading minim (arr_val arrs r) (arr_val arrs Ct) (arr_val arrs Gamma) Lambda nCyl (option_map (cb_val arrs) f) t in
    match res with
    | Ok _ => {| l_t := t'; l_r := match nCyl with None => r | Some _ => None end;
                 l_c := match nCyl with None => Ct | Some _ => None end;
                 l_g := cb_ref (t_R t) (arr_val arrs r) (arr_val arrs Ct) (arr_val arrs Gamma) nCyl Ct f |}
    | Err _ => {| l_t := t'; l_r := l_r c; l_c := l_c c; l_g := l_g c |}
    end.
  (** Python: a method is called on object i; NameError if there is none *)
  Definition at_cell (i : nat) (g : lcell -> lcell) (cs : list lcell) : list lcell :=
    match nth_error cs i with Some c => upd cs i (g c) | None => cs end.
  (** WindTurbine.py:108,117,120,243,246: a method that assigns none of r, Ct and gamma_t *)
  Definition on_lcell (w : lworld) (i : nat) (g : turbine N -> turbine N) : lworld :=
    {| lw_arr := lw_arr w;
       lw_wt := at_cell i (fun c => {| l_t := g (lsee (lw_arr w) c); l_r := l_r c; l_c := l_c c; l_g := l_g c |}) (lw_wt w) |}.
  (** One operation of the program *)
  Definition lstep (w : lworld) (o : lop) : lworld :=
    match o with
    | LNew R hub shaft vert wind Lambda name Ground Model =>
        {| lw_arr := lw_arr w;
           lw_wt := lw_wt w ++ [{| l_t := new_turbine R hub shaft vert wind None Lambda name Ground Model; l_r := None; l_c := None; l_g := None |}] |}
    | LPos i p => on_lcell w i (fun t => update_position t p)
    | LWind i p => on_lcell w i (fun t => update_wind t p)
    | LYaw i yaw => on_lcell w i (fun t => update_yaw_pos t yaw)
    | LChi i chi => on_lcell w i (fun t => set_chi t chi)
    | LCompute i o pts => on_lcell w i (fun t => fst (compute_u t o pts))
    | LLoad i minim r Ct Gamma Lambda nCyl f =>
        if forallb (lknown (lw_arr w)) [r; Ct; Gamma]
        then {| lw_arr := lw_arr w; lw_wt := at_cell i (load_cell (lw_arr w) minim r Ct Gamma Lambda nCyl f) (lw_wt w) |}
        else w
    | LArray l => {| lw_arr := lw_arr w ++ [l]; lw_wt := lw_wt w |}
    | LWrite b k x => {| lw_arr := upd (lw_arr w) b (upd (nth b (lw_arr w) []) k x); lw_wt := lw_wt w |}
    end.
  (** A program run from the start *)
  Definition lrun (p : list lop) : lworld := fold_left lstep p {| lw_arr := []; lw_wt := [] |}.
  (** WindTurbine.py:246: what the user observes of the objects *)
  Definition lobjects (w : lworld) : list (turbine N) := map (lsee (lw_arr w)) (lw_wt w).
End AliasLoad.
Arguments ret : clear implicits.
Arguments lcell : clear implicits.
Arguments lworld : clear implicits.
Arguments lop : clear implicits.
