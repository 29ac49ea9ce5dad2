(** * Arrays with shapes: compute_u and velocity_field on arrays of any dimension, with numpy's broadcasting

    The other model files work on the list of points of a meshgrid.  Here the coordinates are numpy arrays: a shape and the values in C order.
    Shapes are stored innermost dimension first: numpy's (n1,...,nk) is [nk;...;n1]; the shape () of a scalar is [].
    Simplification: arrays with a zero dimension other than the shape (0,) are outside this model (np.amax raises on some of them). *)
From Coq Require Import ZArith List Bool Arith String.
From Verif Require Import Num M_Elliptic M_Cylinder M_Skewed M_Turbine M_Farm.
Import ListNotations.
Local Open Scope num_scope.
Local Notation len := List.length.

Section Shape.
  Context {N : Num}.
  Notation pt := (N * N * N)%type.
  (** a numpy array of floats (the arguments Xg,Yg,Zg of WindTurbine.py:246 and X,Y,Z of WindFarm.py:24, after np.asarray) *)
  Record arr := { shape : list nat; vals : list N }.
  (** position in C order of the multi-index [r] of an array of shape [s] *)
  Fixpoint ravel (s r : list nat) : nat :=
    match s, r with n :: s, i :: r => (i + n * ravel s r)%nat | _, _ => O end.
  (** all multi-indices of a shape, in C order *)
  Fixpoint idxs (s : list nat) : list (list nat) :=
    match s with [] => [[]] | n :: s => flat_map (fun r => map (fun i => i :: r) (seq 0 n)) (idxs s) end.
  (** numpy's broadcasting of two shapes in an elementwise operation (WindTurbine.py:46-48): None if they do not match *)
  Fixpoint bshape (s1 s2 : list nat) : option (list nat) :=
    match s1, s2 with
    | [], s | s, [] => Some s
    | a :: s1, b :: s2 =>
        match bshape s1 s2 with
        | None => None
        | Some s => if Nat.eqb a b then Some (a :: s) else if Nat.eqb a 1 then Some (b :: s) else if Nat.eqb b 1 then Some (a :: s) else None
        end
    end.
  (** the index used in an array of shape [s] for the index [r] of the broadcast shape *)
  Fixpoint clip (s r : list nat) : list nat :=
    match s, r with n :: s, i :: r => (if Nat.eqb n 1 then O else i) :: clip s r | _, _ => [] end.
  (** the value of the broadcast array at the index [r] *)
  Definition bget (a : arr) (r : list nat) : N := nth (ravel (shape a) (clip (shape a) r)) (vals a) (#0).
  (** WindTurbine.py:46-48, 271: the coordinates that are combined elementwise, for the broadcast shape [s] *)
  Definition points (s : list nat) (X Y Z : arr) : list pt := map (fun r => (bget X r, bget Y r, bget Z r)) (idxs s).
  (** three arrays of shape [s] out of a list of velocities *)
  Definition arrays3 (s : list nat) (us : list pt) : arr * arr * arr :=
    ({| shape := s; vals := map (fun u => fst (fst u)) us |}, {| shape := s; vals := map (fun u => snd (fst u)) us |}, {| shape := s; vals := map snd us |}).
  (** equality of shapes *)
  Fixpoint same_shape (s s' : list nat) : bool :=
    match s, s' with [], [] => true | a :: s, b :: s' => Nat.eqb a b && same_shape s s' | _, _ => false end.
  (** self.r_hub has shape (3,1), so Xcyl[0] has shape (1,): Xc-Xcyl[0] has at least one dimension (WindTurbine.py:285-287, VortexCylinder.py:246) *)
  Definition at_least_1d (s : list nat) : list nat := match s with [] => [1]%nat | _ => s end.

  (** WindTurbine.py:296-377: does the call reach one of the statements uxc += uxc0?  Err: it raises before that *)
  Definition first_add (t : turbine N) (o : opts N) (gs : list N) (pts : list pt) : result bool :=
    let Model := match o_Model o with Some m => m | None => t_model t end in
    let M := T_c2g t in
    let chi := chi_now t in
    let Y := map (shift (transform_T M (t_rhub t))) (map (transform_T M) pts) in
    let rest :=
      match gs with
      | [g] =>
          if o_tang o && negb (g =? #0) then let* _ := cu_tang1 t o Model chi g Y in Ok true
          else let* gl := gl_active1 t (o_longi o) in
               match gl with Some gl => let* _ := cu_longi1 t Model chi gl Y in Ok true | None => Ok false end
      | _ =>
          if String.eqb Model "VC" then
            match t_r t, t_gl t with
            | None, _ => Err ETypeError
            | _, None => Err EAttributeError
            | Some r, Some gl =>
                if negb (Nat.eqb (len gs) (len r)) then Err EValueError
                else if match gl with Some gl => negb (Nat.eqb (len gl) (len r)) | None => false end then Err EValueError
                else Ok (o_tang o || match o_longi o, gl with true, Some _ => true | _, _ => false end)
            end
          else Err (ENotImplemented ("Model" ++ Model))
      end in
    match o_root o, t_Gr t with
    | true, Some Gr =>
        if Gr =? #0 then rest
        else let* _ := if skewed chi then svc_root_u Gr (ntan N chi) false Y else Ok [] in Ok true
    | _, _ => rest
    end.

  (** WindTurbine.py:246-412 on arrays.  The accumulators have the shape of Xg (279-281), the contributions the broadcast shape: += raises ValueError
      when they differ.  The mask of no_wake has the broadcast shape: indexing an array of another shape with it raises IndexError (389-391).
      self.U0_g has shape (3,1): adding U0_g[0] to a scalar makes it an array of shape (1,) (408-411) *)
  Definition compute_u_nd (t : turbine N) (o : opts N) (X Y Z : arr) : turbine N * result (arr * arr * arr) :=
    match match bshape (shape X) (shape Y) with Some s => bshape s (shape Z) | None => None end with
    | None => (t, Err EValueError)
    | Some s0 =>
        let s := at_least_1d s0 in
        let pts := points s0 X Y Z in
        let '(t', r) := compute_u t o pts in
        if same_shape s (shape X) then (t', let* us := r in Ok (arrays3 s us))
        else (t',
          match t_gt t with
          | None => Err (EException "Please set loading with `update_loading` before calling `compute_u`")
          | Some gs =>
              let* b := first_add t o gs pts in
              if b then Err EValueError
              else if o_no_wake o then Err EIndexError
              else
                let u0 := transform (T_c2g t) (#0, #0, #0) in
                let n := len (idxs (shape X)) in
                Ok (if o_only_ind o then arrays3 (shape X) (repeat u0 n)
                    else arrays3 (at_least_1d (shape X)) (repeat (vadd u0 (t_U0 t)) n))
          end)
    end.

  (** WindFarm.py:44-46: elementwise sum of two arrays of the same shape *)
  Definition add_arr (a b : arr) : arr := {| shape := shape a; vals := map2 (fun x y => x + y) (vals a) (vals b) |}.
  (** WindFarm.py:42-46; with only_ind=True compute_u returns arrays of the shape of X *)
  Fixpoint farm_loop_nd (h : heap N) (f : farm) (o : opts N) (X Y Z : arr) (u : arr * arr * arr) : heap N * result (arr * arr * arr) :=
    match f with
    | [] => (h, Ok u)
    | i :: f' =>
        match nth_error h i with
        | Some (OWT t) =>
            let '(t', r) := compute_u_nd t (farm_opts o) X Y Z in
            let h' := upd h i (OWT t') in
            match r with
            | Ok v => farm_loop_nd h' f' o X Y Z (let '(a, b, c) := u in let '(a', b', c') := v in (add_arr a a', add_arr b b', add_arr c c'))
            | Err e => (h', Err e)
            end
        | _ => (h, Err EAttributeError)
        end
    end.
  (** WindFarm.py:24-53 on arrays; U0 is a vector of three numbers *)
  Definition velocity_field_nd (h : heap N) (f : farm) (o : opts N) (U0 : option pt) (X Y Z : arr) : heap N * result (arr * arr * arr) :=
    let z := {| shape := shape X; vals := map (fun _ => #0) (idxs (shape X)) |} in
    let '(h', r) := farm_loop_nd h f o X Y Z (z, z, z) in
    (h', let* u := r in
         Ok (match U0 with
             | None => u
             | Some (a, b, c) =>
                 let '(x, y, z) := u in
                 ({| shape := shape x; vals := map (fun v => v + a) (vals x) |}, {| shape := shape y; vals := map (fun v => v + b) (vals y) |},
                  {| shape := shape z; vals := map (fun v => v + c) (vals z) |})
             end)).
End Shape.
Arguments arr : clear implicits.
