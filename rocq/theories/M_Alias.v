(** * Model of the arrays a turbine shares with its caller (wiz/WindTurbine.py, wiz/WindFarm.py)

    np.asarray(a).ravel().reshape(3,1) copies a Python list, but of a contiguous numpy array it is a view: the
    attribute of the turbine and the caller's array are the same memory.  M_Turbine and M_Farm give the objects
    value semantics (an attribute holds the numbers it was given); here the attributes r_hub, U0_g, e_shaft_g0 and
    e_vert_g are references into a memory of arrays.  The other attributes are computed into fresh arrays.
    Simplifications: arguments have three entries (other sizes raise ValueError in reshape); the loading
    arrays, which WindTurbine.py:172,188,189 may keep by reference, are passed by value (they are modelled in M_AliasLoad). *)
From Coq Require Import ZArith List Bool String Arith.
From Verif Require Import Num M_Turbine M_Farm.
Import ListNotations.
Local Open Scope num_scope.
Local Notation len := List.length.

Section Alias.
  Context {N : Num}.
  Notation pt := (N * N * N)%type.

  (** numpy buffers: the arrays the user's program has created, and those numpy creates for the library
      (WindTurbine.py:92,94,118,121: np.asarray of a list, ravel of a strided array) *)
  Inductive addr := User (b : nat) | Lib (b : nat).
  (** WindTurbine.py:92,94,118,121: the contents of all the buffers *)
  Record mem := { m_user : list (list N); m_lib : list (list N) }.
  (** WindTurbine.py:92,94,118,121; WindFarm.py:71: a one-dimensional array of three entries: buffer, first index, stride (all in entries) *)
  Record view := { v_buf : addr; v_off : nat; v_str : nat }.
  (** WindTurbine.py:61,117,120: what may be passed as a vector: a list of three numbers, or an array *)
  Inductive arg := AList (p : pt) | AArr (b off str : nat).

  (** numpy: contents of a buffer *)
  Definition buf (m : mem) (a : addr) : list N :=
    match a with User b => nth b (m_user m) [] | Lib b => nth b (m_lib m) [] end.
  (** numpy: entry j of a view *)
  Definition load (m : mem) (v : view) (j : nat) : N := nth (v_off v + j * v_str v) (buf m (v_buf v)) (nnan N).
  (** numpy: the three entries of a view *)
  Definition read3 (m : mem) (v : view) : pt := (load m v 0, load m v 1, load m v 2).
  (** numpy: the library creates an array *)
  Definition alloc_lib (m : mem) (p : pt) : mem * view :=
    let '(x, y, z) := p in
    ({| m_user := m_user m; m_lib := m_lib m ++ [[x; y; z]] |}, {| v_buf := Lib (len (m_lib m)); v_off := 0; v_str := 1 |}).
  (** WindTurbine.py:92,94,118,121: np.asarray(a).ravel().reshape(3,1); ravel copies unless the array is contiguous *)
  Definition as_column (m : mem) (a : arg) : mem * view :=
    match a with
    | AList p => alloc_lib m p
    | AArr b off str =>
        let v := {| v_buf := User b; v_off := off; v_str := str |} in
        if Nat.eqb str 1 then (m, v) else alloc_lib m (read3 m v)
    end.

  (** A WindTurbine object: the attributes held by reference (WindTurbine.py:93,94,118,121), and the others; the
      fields t_rhub, t_U0, t_shaft0, t_vert of [c_t] are not used *)
  Record cell := { c_t : turbine N; c_hub : view; c_wind : view; c_shaft0 : view; c_vert : view }.
  (** WindTurbine.py:93,94,118,121: what reading the attributes of the object gives *)
  Definition see (m : mem) (c : cell) : turbine N :=
    let t := c_t c in
    mkT (t_R t) (read3 m (c_hub c)) (t_shaft t) (read3 m (c_shaft0 c)) (read3 m (c_vert c)) (t_horz t) (t_TF2g t) (t_Tc2wt t)
        (t_Twt2g t) (t_yaw t) (read3 m (c_wind c)) (t_r t) (t_gt t) (t_gl t) (t_Gr t) (t_Lambda t) (t_ground t) (t_chi t)
        (t_model t) (t_Ct t) (t_name t).
  (** The program state: arrays and objects *)
  Record world := { w_mem : mem; w_wt : list cell }.

  (** What the user's program may do.  [minim] is the minimiser of M_Solver. *)
  Inductive op :=
  | PNew (R : N) (hub shaft vert wind : arg) (Lambda : option N) (name : string) (Ground : bool) (Model : string)
      (** WindTurbine.py:61 *)
  | PPos (i : nat) (a : arg)                    (** WindTurbine.py:117 *)
  | PWind (i : nat) (a : arg)                   (** WindTurbine.py:120 *)
  | PYaw (i : nat) (yaw : N)                    (** WindTurbine.py:108 *)
  | PChi (i : nat) (chi : N)                    (** WindTurbine.py:243 *)
  | PLoad (i : nat) (minim : (N -> N) -> N -> N -> N) (r Ct Gamma : option (list N)) (Lambda : option N)
          (nCyl : option nat) (f : option (list N -> result (list N)))   (** WindTurbine.py:123 *)
  | PCompute (i : nat) (o : opts N) (pts : list pt)                      (** WindTurbine.py:246 *)
  | PArray (l : list N)                         (** the program creates an array *)
  | PWrite (b k : nat) (x : N)                  (** the program writes one entry of its array *)
  | PLayoutSet (f : farm) (b : nat) (Corder : bool) (** WindFarm.py:64, with an array of shape (nWT,3) *)
  | PLayoutGet (f : farm).                      (** WindFarm.py:60: the program obtains a new array *)

  (** one object is modified by a method that assigns none of the attributes held by reference *)
  Definition on_cell (w : world) (i : nat) (g : turbine N -> turbine N) : world :=
    match nth_error (w_wt w) i with
    | Some c => {| w_mem := w_mem w;
                   w_wt := upd (w_wt w) i {| c_t := g (see (w_mem w) c); c_hub := c_hub c; c_wind := c_wind c;
                                             c_shaft0 := c_shaft0 c; c_vert := c_vert c |} |}
    | None => w
    end.
  (** WindTurbine.py:118 *)
  Definition assign_hub (i : nat) (a : arg) (w : world) : world :=
    match nth_error (w_wt w) i with
    | Some c => let '(m, v) := as_column (w_mem w) a in
                {| w_mem := m; w_wt := upd (w_wt w) i {| c_t := c_t c; c_hub := v; c_wind := c_wind c;
                                                         c_shaft0 := c_shaft0 c; c_vert := c_vert c |} |}
    | None => w
    end.
  (** WindTurbine.py:121 *)
  Definition assign_wind (i : nat) (a : arg) (w : world) : world :=
    match nth_error (w_wt w) i with
    | Some c => let '(m, v) := as_column (w_mem w) a in
                {| w_mem := m; w_wt := upd (w_wt w) i {| c_t := c_t c; c_hub := c_hub c; c_wind := v;
                                                         c_shaft0 := c_shaft0 c; c_vert := c_vert c |} |}
    | None => w
    end.
  (** WindFarm.py:70-73: row k of the layout, an (n,3) array in C order (rows contiguous) or in Fortran order (columns contiguous) *)
  Definition row_arg (b n : nat) (Corder : bool) (k : nat) : arg :=
    if Corder then AArr b (3 * k) 1 else AArr b k n.
  (** WindFarm.py:70-73 *)
  Fixpoint set_rows (f : farm) (row : nat -> arg) (k : nat) (w : world) : world :=
    match f with [] => w | i :: f' => set_rows f' row (S k) (assign_hub i (row k) w) end.
  (** numpy: one entry of a buffer of the user *)
  Definition write_user (m : mem) (b k : nat) (x : N) : mem :=
    {| m_user := upd (m_user m) b (upd (nth b (m_user m) []) k x); m_lib := m_lib m |}.
  (** numpy: a new array of the user *)
  Definition alloc_user (m : mem) (l : list N) : mem := {| m_user := m_user m ++ [l]; m_lib := m_lib m |}.
  (** WindFarm.py:62: the rows of the layout, in order; a reference to no object contributes nothing *)
  Definition hubs_of (ts : list (turbine N)) (f : farm) : list N :=
    List.concat (map (fun i => match nth_error ts i with Some t => let '(x, y, z) := t_rhub t in [x; y; z] | None => [] end) f).

  (** Python: an array that does not exist cannot be named (NameError before the call) *)
  Definition known (m : mem) (a : arg) : bool :=
    match a with AList _ => true | AArr b _ _ => Nat.ltb b (len (m_user m)) end.

  (** One operation of the program *)
  Definition step (w : world) (o : op) : world :=
    match o with
    | PNew R hub shaft vert wind Lambda name Ground Model =>
        if negb (forallb (known (w_mem w)) [hub; shaft; vert; wind]) then w else
        let '(m, vs) := as_column (w_mem w) shaft in
        let '(m, vv) := as_column m vert in
        let '(m, vh) := as_column m hub in
        let '(m, vw) := as_column m wind in
        let t := new_turbine R (read3 m vh) (read3 m vs) (read3 m vv) (read3 m vw) None Lambda name Ground Model in
        {| w_mem := m; w_wt := w_wt w ++ [{| c_t := t; c_hub := vh; c_wind := vw; c_shaft0 := vs; c_vert := vv |}] |}
    | PPos i a => if known (w_mem w) a then assign_hub i a w else w
    | PWind i a => if known (w_mem w) a then assign_wind i a w else w
    | PYaw i yaw => on_cell w i (fun t => update_yaw_pos t yaw)
    | PChi i chi => on_cell w i (fun t => set_chi t chi)
    | PLoad i minim r Ct Gamma Lambda nCyl f => on_cell w i (fun t => fst (update_loading minim r Ct Gamma Lambda nCyl f t))
    | PCompute i o pts => on_cell w i (fun t => fst (compute_u t o pts))
    | PArray l => {| w_mem := alloc_user (w_mem w) l; w_wt := w_wt w |}
    | PWrite b k x => {| w_mem := write_user (w_mem w) b k x; w_wt := w_wt w |}
    | PLayoutSet f b Corder =>
        if Nat.eqb (len (nth b (m_user (w_mem w)) [])) (3 * len f) then set_rows f (row_arg b (len f) Corder) 0 w else w
    | PLayoutGet f => {| w_mem := alloc_user (w_mem w) (hubs_of (map (see (w_mem w)) (w_wt w)) f); w_wt := w_wt w |}
    end.
  (** A program run from the start *)
  Definition run (p : list op) : world :=
    fold_left step p {| w_mem := {| m_user := []; m_lib := [] |}; w_wt := [] |}.
  (** WindTurbine.py:246, WindFarm.py:60: what the user observes of the objects *)
  Definition objects (w : world) : list (turbine N) := map (see (w_mem w)) (w_wt w).
End Alias.
Arguments addr : clear implicits.
Arguments view : clear implicits.
Arguments arg : clear implicits.
Arguments mem : clear implicits.
Arguments cell : clear implicits.
Arguments world : clear implicits.
Arguments op : clear implicits.
