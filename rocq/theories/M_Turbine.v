(** * Model of wiz/WindTurbine.py *)
From Coq Require Import ZArith List Bool String.
From Verif Require Import Num M_Elliptic M_Line M_Doublet M_Cylinder M_Ring M_Misc M_Skewed M_Solver.
Import ListNotations.
Local Open Scope num_scope.
Local Notation len := List.length.

Section Geometry.
  Context {N : Num}.
  Notation pt := (N * N * N)%type.
  Notation mat := (pt * pt * pt)%type.        (* rows *)

  (** np.dot of two vectors, as called at WindTurbine.py:95,115,196,198,200-202,211-212 *)
  Definition dot (a b : pt) : N :=
    let '(a0, a1, a2) := a in let '(b0, b1, b2) := b in a0 * b0 + a1 * b1 + a2 * b2.
  (** np.cross, as called at WindTurbine.py:99,104,198,211 *)
  Definition cross (a b : pt) : pt :=
    let '(a0, a1, a2) := a in let '(b0, b1, b2) := b in
    (a1 * b2 - a2 * b1, a2 * b0 - a0 * b2, a0 * b1 - a1 * b0).
  (** np.linalg.norm, as called at WindTurbine.py:34,43,96,141,197,210 *)
  Definition norm (a : pt) : N := let '(a0, a1, a2) := a in nsqrt N (sq a0 + sq a1 + sq a2).
  (** WindTurbine.py:196: difference of two vectors *)
  Definition vsub (a b : pt) : pt :=
    let '(a0, a1, a2) := a in let '(b0, b1, b2) := b in (a0 - b0, a1 - b1, a2 - b2).
  (** WindTurbine.py:95: vector minus a scalar (1x1 array), broadcast *)
  Definition vsubs (a : pt) (s : N) : pt := let '(a0, a1, a2) := a in (a0 - s, a1 - s, a2 - s).
  (** WindTurbine.py:196,236: scalar times vector *)
  Definition vscale (s : N) (a : pt) : pt := let '(a0, a1, a2) := a in (s * a0, s * a1, s * a2).
  (** WindTurbine.py:34,43,96,197,210: vector divided by a scalar *)
  Definition vdivs (a : pt) (s : N) : pt := let '(a0, a1, a2) := a in (a0 / s, a1 / s, a2 / s).

  (** row of a 3x3 array (used in specifications; numpy indexing T[i,:]) *)
  Definition mrow (i : nat) (M : mat) : pt :=
    let '(r0, r1, r2) := M in match i with 0%nat => r0 | 1%nat => r1 | _ => r2 end.
  (** transpose (.T at WindTurbine.py:273) *)
  Definition mtr (M : mat) : mat :=
    let '((a, b, c), (d, e, f), (g, h, i)) := M in ((a, d, g), (b, e, h), (c, f, i)).
  (** np.dot(M,v), as called at WindTurbine.py:115,239,273 *)
  Definition mvec (M : mat) (v : pt) : pt :=
    let '(r0, r1, r2) := M in (dot r0 v, dot r1 v, dot r2 v).
  (** np.dot(M,P), as called at WindTurbine.py:270 *)
  Definition mmul (M P : mat) : mat :=
    let '(r0, r1, r2) := M in let '(c0, c1, c2) := mtr P in
    ((dot r0 c0, dot r0 c1, dot r0 c2), (dot r1 c0, dot r1 c1, dot r1 c2),
     (dot r2 c0, dot r2 c1, dot r2 c2)).
  (** np.column_stack((a,b,c)), as called at WindTurbine.py:101,105 *)
  Definition mcols (a b c : pt) : mat := mtr (a, b, c).

  (** WindTurbine.py:22-30 *)
  Definition RotMat_AxisAngle (u : pt) (theta : N) : mat :=
    let '(ux, uy, uz) := u in
    let c := ncos N theta in
    let s := nsin N theta in
    ((sq ux * (#1 - c) + c,       ux * uy * (#1 - c) - uz * s, ux * uz * (#1 - c) + uy * s),
     (uy * ux * (#1 - c) + uz * s, sq uy * (#1 - c) + c,       uy * uz * (#1 - c) - ux * s),
     (uz * ux * (#1 - c) - uy * s, uz * uy * (#1 - c) + ux * s, sq uz * (#1 - c) + c)).

  (** WindTurbine.py:32-43 *)
  Definition orth_vect (u : pt) : result pt :=
    let '(u0, u1, u2) := vdivs u (norm u) in
    let t := #1 / nsqrt N (#3) in
    let ret v := Ok (vdivs v (norm v)) in
    if nabs N u0 >=? t then ret (- u1, u0, #0)
    else if nabs N u1 >=? t then ret (#0, - u2, u1)
    else if nabs N u2 >=? t then ret (u2, #0, - u0)
    else Err (EException "Cannot find orthogonal vector to a zero vector").

  (** WindTurbine.py:45-49 *)
  Definition transform_T (M : mat) (p : pt) : pt :=
    let '((t00, t01, t02), (t10, t11, t12), (t20, t21, t22)) := M in
    let '(x, y, z) := p in
    (t00 * x + t10 * y + t20 * z, t01 * x + t11 * y + t21 * z, t02 * x + t12 * y + t22 * z).
  (** WindTurbine.py:50-54 *)
  Definition transform (M : mat) (p : pt) : pt :=
    let '((t00, t01, t02), (t10, t11, t12), (t20, t21, t22)) := M in
    let '(x, y, z) := p in
    (t00 * x + t01 * y + t02 * z, t10 * x + t11 * y + t12 * z, t20 * x + t21 * y + t22 * z).

  (** numpy.interp(x,xp,fp) for increasing xp, past the first node (called at WindTurbine.py:154,156).  Simplification: a NaN abscissa gives the last value (numpy: NaN); the abscissae used by the code are numbers *)
  Fixpoint interp_go (x : N) (xp fp : list N) : N :=
    match xp, fp with
    | a :: ((b :: _) as xp'), f :: ((g :: _) as fp') =>
        if x <? b then (g - f) / (b - a) * (x - a) + f else interp_go x xp' fp'
    | _, f :: _ => f
    | _, [] => nnan N
    end.
  (** numpy.interp(xs,xp,fp), as called at WindTurbine.py:154,156 *)
  Definition np_interp (xs : list N) (xp fp : list N) : result (list N) :=
    match xp, fp with
    | x0 :: _, f0 :: _ =>
        if Nat.eqb (len xp) (len fp)
        then Ok (map (fun x => if x <? x0 then f0 else interp_go x xp fp) xs)
        else Err EValueError
    | _, _ => Err EValueError
    end.
  (** np.mean, as called at WindTurbine.py:148,150 *)
  Definition np_mean (l : list N) : N := nsum l / nZ N (Z.of_nat (len l)).
End Geometry.

Section Turbine.
  Context {N : Num}.
  Notation pt := (N * N * N)%type.
  Notation mat := (pt * pt * pt)%type.

  (** Attributes of a WindTurbine object (WindTurbine.py:77-121, 172-189).  [option] around an attribute that the
      constructor does not create (gamma_l, Ct): None = attribute missing. *)
  Record turbine := mkT {
    t_R : N; t_rhub : pt; t_shaft : pt; t_shaft0 : pt; t_vert : pt; t_horz : pt;
    t_TF2g : mat; t_Tc2wt : mat; t_Twt2g : mat; t_yaw : N; t_U0 : pt;
    t_r : option (list N);
    t_gt : option (list N);
    t_gl : option (option (list N));
    t_Gr : option N;
    t_Lambda : option N; t_ground : bool; t_chi : option N; t_model : string;
    t_Ct : option (option (list N)); t_name : string }.

  (** assignment of attributes, WindTurbine.py:112-115 *)
  Definition set_yawf (t : turbine) (yaw : N) (M : mat) (sh : pt) : turbine :=
    mkT (t_R t) (t_rhub t) sh (t_shaft0 t) (t_vert t) (t_horz t) (t_TF2g t) (t_Tc2wt t) M yaw
        (t_U0 t) (t_r t) (t_gt t) (t_gl t) (t_Gr t) (t_Lambda t) (t_ground t) (t_chi t)
        (t_model t) (t_Ct t) (t_name t).
  (** assignment of an attribute, WindTurbine.py:118 *)
  Definition set_rhub (t : turbine) (p : pt) : turbine :=
    mkT (t_R t) p (t_shaft t) (t_shaft0 t) (t_vert t) (t_horz t) (t_TF2g t) (t_Tc2wt t)
        (t_Twt2g t) (t_yaw t) (t_U0 t) (t_r t) (t_gt t) (t_gl t) (t_Gr t) (t_Lambda t)
        (t_ground t) (t_chi t) (t_model t) (t_Ct t) (t_name t).
  (** assignment of an attribute, WindTurbine.py:121 *)
  Definition set_U0 (t : turbine) (p : pt) : turbine :=
    mkT (t_R t) (t_rhub t) (t_shaft t) (t_shaft0 t) (t_vert t) (t_horz t) (t_TF2g t) (t_Tc2wt t)
        (t_Twt2g t) (t_yaw t) p (t_r t) (t_gt t) (t_gl t) (t_Gr t) (t_Lambda t)
        (t_ground t) (t_chi t) (t_model t) (t_Ct t) (t_name t).
  (** assignment of an attribute, WindTurbine.py:88,244,276 *)
  Definition set_chif (t : turbine) (c : option N) : turbine :=
    mkT (t_R t) (t_rhub t) (t_shaft t) (t_shaft0 t) (t_vert t) (t_horz t) (t_TF2g t) (t_Tc2wt t)
        (t_Twt2g t) (t_yaw t) (t_U0 t) (t_r t) (t_gt t) (t_gl t) (t_Gr t) (t_Lambda t)
        (t_ground t) c (t_model t) (t_Ct t) (t_name t).
  (** assignment of an attribute, WindTurbine.py:83,172,176,178 *)
  Definition set_gt (t : turbine) (v : option (list N)) : turbine :=
    mkT (t_R t) (t_rhub t) (t_shaft t) (t_shaft0 t) (t_vert t) (t_horz t) (t_TF2g t) (t_Tc2wt t)
        (t_Twt2g t) (t_yaw t) (t_U0 t) (t_r t) v (t_gl t) (t_Gr t) (t_Lambda t) (t_ground t)
        (t_chi t) (t_model t) (t_Ct t) (t_name t).
  (** assignment of an attribute, WindTurbine.py:173,176,178 *)
  Definition set_gl (t : turbine) (v : option (list N)) : turbine :=
    mkT (t_R t) (t_rhub t) (t_shaft t) (t_shaft0 t) (t_vert t) (t_horz t) (t_TF2g t) (t_Tc2wt t)
        (t_Twt2g t) (t_yaw t) (t_U0 t) (t_r t) (t_gt t) (Some v) (t_Gr t) (t_Lambda t)
        (t_ground t) (t_chi t) (t_model t) (t_Ct t) (t_name t).
  (** assignment of an attribute, WindTurbine.py:85,174,176,178 *)
  Definition set_Gr (t : turbine) (v : option N) : turbine :=
    mkT (t_R t) (t_rhub t) (t_shaft t) (t_shaft0 t) (t_vert t) (t_horz t) (t_TF2g t) (t_Tc2wt t)
        (t_Twt2g t) (t_yaw t) (t_U0 t) (t_r t) (t_gt t) (t_gl t) v (t_Lambda t) (t_ground t)
        (t_chi t) (t_model t) (t_Ct t) (t_name t).
  (** assignment of an attribute, WindTurbine.py:86,187 *)
  Definition set_Lambda (t : turbine) (v : option N) : turbine :=
    mkT (t_R t) (t_rhub t) (t_shaft t) (t_shaft0 t) (t_vert t) (t_horz t) (t_TF2g t) (t_Tc2wt t)
        (t_Twt2g t) (t_yaw t) (t_U0 t) (t_r t) (t_gt t) (t_gl t) (t_Gr t) v (t_ground t)
        (t_chi t) (t_model t) (t_Ct t) (t_name t).
  (** assignment of an attribute, WindTurbine.py:82,188 *)
  Definition set_r (t : turbine) (v : option (list N)) : turbine :=
    mkT (t_R t) (t_rhub t) (t_shaft t) (t_shaft0 t) (t_vert t) (t_horz t) (t_TF2g t) (t_Tc2wt t)
        (t_Twt2g t) (t_yaw t) (t_U0 t) v (t_gt t) (t_gl t) (t_Gr t) (t_Lambda t) (t_ground t)
        (t_chi t) (t_model t) (t_Ct t) (t_name t).
  (** assignment of an attribute, WindTurbine.py:189 *)
  Definition set_Ct (t : turbine) (v : option (list N)) : turbine :=
    mkT (t_R t) (t_rhub t) (t_shaft t) (t_shaft0 t) (t_vert t) (t_horz t) (t_TF2g t) (t_Tc2wt t)
        (t_Twt2g t) (t_yaw t) (t_U0 t) (t_r t) (t_gt t) (t_gl t) (t_Gr t) (t_Lambda t)
        (t_ground t) (t_chi t) (t_model t) (Some v) (t_name t).

  (** Methods with side effects on the object (WindTurbine.py:123-189): statement sequences in a
      state-and-exception monad.  An exception leaves the assignments already
      executed in place. *)
  Definition meth (A : Type) := turbine -> turbine * result A.
  (** Python: an expression without effect *)
  Definition mret {A} (a : A) : meth A := fun t => (t, Ok a).
  (** Python: raise *)
  Definition mraise {A} (e : exn) : meth A := fun t => (t, Err e).
  (** Python: a call without effect on the object, which may raise *)
  Definition mlift {A} (r : result A) : meth A := fun t => (t, r).
  (** Python: assignment of an attribute *)
  Definition massign (f : turbine -> turbine) : meth unit := fun t => (f t, Ok tt).
  (** Python: statement sequence *)
  Definition mbind {A B} (m : meth A) (k : A -> meth B) : meth B :=
    fun t => match m t with (t', Ok a) => k a t' | (t', Err e) => (t', Err e) end.
  Local Notation "'do' x <- m ; k" := (mbind m (fun x => k))
    (at level 200, x pattern, m at level 100, k at level 200, right associativity).

  (** WindTurbine.py:108-115 *)
  Definition update_yaw_pos (t : turbine) (yaw : N) : turbine :=
    let M := RotMat_AxisAngle (t_vert t) yaw in
    set_yawf t yaw M (mvec M (t_shaft0 t)).
  (** WindTurbine.py:117-118 *)
  Definition update_position (t : turbine) (p : pt) : turbine := set_rhub t p.
  (** WindTurbine.py:120-121 *)
  Definition update_wind (t : turbine) (u : pt) : turbine := set_U0 t u.
  (** WindTurbine.py:243-244 *)
  Definition set_chi (t : turbine) (chi : N) : turbine := set_chif t (Some chi).

  (** WindTurbine.py:95-96: v_horz0 = e_shaft - dot(e_shaft.T,e_vert)  (no "*e_vert") *)
  Definition horz_of (shaft vert : pt) : pt :=
    let v := vsubs shaft (dot shaft vert) in vdivs v (norm v).

  (** WindTurbine.py:61-106: constructor (set_yaw0_coord, update_position,
      update_wind inlined).  The argument Ct is accepted and never used. *)
  Definition new_turbine (R : N) (r_hub e_shaft e_vert U0 : pt) (Ct : option (list N))
             (Lambda : option N) (name : string) (Ground : bool) (Model : string) : turbine :=
    let horz := horz_of e_shaft e_vert in
    let Fy := cross e_vert horz in
    let ecx := cross e_vert e_shaft in
    let t := mkT R r_hub e_shaft e_shaft e_vert horz (mcols horz Fy e_vert)
                 (mcols ecx e_vert e_shaft) ((e_vert, e_vert, e_vert)) (#0) U0
                 None None None None Lambda Ground None Model None name in
    update_yaw_pos t (#0).

  (** WindTurbine.py:123-189.  [minim]: see M_Solver. *)
  (** WindTurbine.py:143-157: loading re-interpolated on the cylinders *)
  Definition load_interp (R : N) (r Ct Gamma : option (list N)) (nCyl : option nat)
    : result (option (list N) * option (list N) * option (list N)) :=
    match nCyl with
    | None => Ok (r, Ct, Gamma)
    | Some 1%nat =>
        Ok (Some [#q(995,1000) * R],
            option_map (fun c => [np_mean c]) Ct, option_map (fun g => [np_mean g]) Gamma)
    | Some n =>
        let vr0 := map (fun x => x * R) (linspace (#q(5,1000)) (#q(995,1000)) n) in
        match r with
        | None => Err ETypeError
        | Some r =>
            match Ct with
            | Some c => let* c' := np_interp vr0 r c in Ok (Some vr0, Some c', Gamma)
            | None =>
                match Gamma with
                | None => Err ETypeError
                | Some g => let* g' := np_interp vr0 r g in Ok (Some vr0, Ct, Some g')
                end
            end
        end
    end.
  (** WindTurbine.py:176,178 with r=None: r/R and np.asarray(None)[...] raise TypeError *)
  Definition need {A} (x : option A) : result A :=
    match x with Some a => Ok a | None => Err ETypeError end.
  (** WindTurbine.py:123-189.  [minim]: see M_Solver.  [gamma_t_Ct]: the user's function, which may raise.
      Simplification: Ct and Gamma are arrays (or None); the shapes are one-dimensional *)
  Definition update_loading (minim : (N -> N) -> N -> N -> N)
             (r Ct Gamma : option (list N)) (Lambda : option N) (nCyl : option nat)
             (gamma_t_Ct : option (list N -> result (list N))) : meth unit := fun self =>
   (let U0 := norm (t_U0 self) in
    do (r, Ct, Gamma) <- mlift (load_interp (t_R self) r Ct Gamma nCyl);
    match (match Lambda with Some l => Some l | None => t_Lambda self end) with
    | None => mraise (EException "Provide `Lambda` for update_loading.")
    | Some L =>
        let Omega := L * U0 / t_R self in
        do _ <- match gamma_t_Ct, Ct, Gamma with
                | Some f, None, _ => mraise (EException "Provide `Ct` along `gamma_t_Ct`")
                | Some f, Some c, _ =>
                    do g <- mlift (f c);
                    do _ <- massign (fun t => set_gt t (Some g));
                    do _ <- massign (fun t => set_gl t None);
                    massign (fun t => set_Gr t None)
                | None, Some c, _ =>
                    do w <- mlift (let* rr := need r in
                                   WakeVorticityFromCt minim rr c (t_R self) U0 Omega);
                    do _ <- massign (fun t => set_gt t (Some (w_gt w)));
                    do _ <- massign (fun t => set_gl t (w_gl w));
                    massign (fun t => set_Gr t (w_Gr w))
                | None, None, Some g =>
                    do w <- mlift (let* rr := need r in
                                   WakeVorticityFromGamma rr g (t_R self) U0 Omega);
                    do _ <- massign (fun t => set_gt t (Some (w_gt w)));
                    do _ <- massign (fun t => set_gl t (w_gl w));
                    massign (fun t => set_Gr t (w_Gr w))
                | None, None, None => mraise (EException "Unknown loading spec")
                end;
        do _ <- massign (fun t => set_Lambda t (Some L));
        do _ <- massign (fun t => set_r t r);
        massign (fun t => set_Ct t Ct)
    end) self.

  (** WindTurbine.py:191-203 *)
  Definition yaw_wind (t : turbine) : N :=
    let u_horz := vsub (t_U0 t) (vscale (dot (t_U0 t) (t_vert t)) (t_vert t)) in
    let e_w := vdivs u_horz (norm u_horz) in
    let sign := nsign N (dot (cross (t_horz t) (t_U0 t)) (t_vert t)) in
    let ac := nacos N (dot e_w (t_horz t)) in
    if sign =? #0 then ac else sign * ac.

  (** WindTurbine.py:205-217 (v_horz, u_skew are computed but unused) *)
  Definition yaw_error (t : turbine) : N :=
    let e_w := vdivs (t_U0 t) (norm (t_U0 t)) in
    let yaw_sign := nsign N (dot (cross e_w (t_shaft t)) (t_vert t)) in
    yaw_sign * nacos N (dot e_w (t_shaft t)).

  (** WindTurbine.py:233-240 *)
  Definition rotor_disk_points (t : turbine) (nP : nat) : result (list pt) :=
    let* o := orth_vect (t_shaft t) in
    let e_r := vscale (t_R t) o in
    Ok (map (fun th => vadd (t_rhub t) (mvec (RotMat_AxisAngle (t_shaft t) th) e_r))
            (linspace (#0) (#2 * npi N) nP)).

  (** Options of compute_u (WindTurbine.py:246) *)
  Record opts := { o_only_ind : bool; o_longi : bool; o_tang : bool; o_root : bool;
                   o_no_wake : bool; o_ground : option bool; o_Model : option string;
                   o_far : N }.
  (** Default values of the options (WindTurbine.py:246) *)
  Definition default_opts : opts :=
    {| o_only_ind := false; o_longi := false; o_tang := true; o_root := false;
       o_no_wake := false; o_ground := None; o_Model := None; o_far := #6 |}.

  (** WindTurbine.py:270 *)
  Definition T_c2g (t : turbine) : mat := mmul (t_Twt2g t) (t_Tc2wt t).
  (** WindTurbine.py:273-276 *)
  Definition chi_fresh (t : turbine) : N :=
    let e_vert_c := mvec (mtr (T_c2g t)) (t_vert t) in
    nsign N (snd (fst e_vert_c)) * (yaw_wind t - t_yaw t).
  (** WindTurbine.py:274-276: the cached skew angle if there is one *)
  Definition chi_now (t : turbine) : N :=
    match t_chi t with Some c => c | None => chi_fresh t end.
  (** WindTurbine.py:299,312,334,361,369: np.abs(self.chi)>1e-7 *)
  Definition skewed (chi : N) : bool := nabs N chi >? #q(1,10000000).

  (** WindTurbine.py:303-305,330-332,344-346: accumulated += *)
  Definition fsum (u0 : list pt) (fs : list (list pt)) : list pt := fold_left fadd fs u0.

  (** WindTurbine.py:296-305: root vortex *)
  Definition cu_root (t : turbine) (o : opts) (chi : N) (Ylist : list (list pt)) (u : list pt)
    : result (list pt) :=
    let m := ntan N chi in
    match o_root o, t_Gr t with
    | true, Some Gr =>
        if Gr =? #0 then Ok u
        else fold_left (fun acc Y =>
               let* u := acc in
               let* v := if skewed chi then svc_root_u Gr m false Y
                         else Ok (vc_root_u Gr false Y) in
               Ok (fadd u v)) Ylist (Ok u)
    | _, _ => Ok u
    end.

  (** WindTurbine.py:312-329: tangential vorticity of one cylinder *)
  Definition cu_tang1 (t : turbine) (o : opts) (Model : string) (chi g : N) (Y : list pt)
    : result (list pt) :=
    let m := ntan N chi in
    if skewed chi then
      if String.eqb Model "VC" then Ok (map (svc_tang_u g (t_R t) m 180 false) Y)
      else Err (ENotImplemented ("Model " ++ Model ++ ", with yaw."))
    else if String.eqb Model "VC" then Ok (vc_tang_u g (t_R t) (#0) Y)
    else if String.eqb Model "VCFF" then vc_tang_u_doublet g (t_R t) (o_far o) Y
    else if String.eqb Model "VD" then
      Ok (map (doublet_line_u (g * sq (t_R t) * npi N) (#0) (ninf N)) Y)
    else if String.eqb Model "SS" then
      Ok (map (fun p => let uz := ss_u g (t_R t) ss_lambda ss_eta p in (uz * #0, uz * #0, uz)) Y)
    else Err (ENotImplemented ("Model" ++ Model)).
  (** WindTurbine.py:334-343: longitudinal vorticity of one cylinder *)
  Definition cu_longi1 (t : turbine) (Model : string) (chi gl : N) (Y : list pt)
    : result (list pt) :=
    let m := ntan N chi in
    if skewed chi then
      if String.eqb Model "VC" then Ok (map (svc_longi_u gl (t_R t) m 180 false) Y)
      else Err (ENotImplemented ("Model " ++ Model ++ ", longi component."))
    else if String.eqb Model "VC" then Ok (vc_longi_u gl (t_R t) false Y)
    else Err (ENotImplemented ("Model" ++ Model ++ ", longi component.")).
  (** WindTurbine.py:333: the condition  longi and (gamma_l is not None) and gamma_l!=0 *)
  Definition gl_active1 (t : turbine) (longi : bool) : result (option N) :=
    if negb longi then Ok None
    else match t_gl t with
         | None => Err EAttributeError
         | Some None => Ok None
         | Some (Some [gl]) => Ok (if gl =? #0 then None else Some gl)
         | Some (Some _) => Err EValueError     (* truth value of a longer array *)
         end.
  (** WindTurbine.py:308-346: one cylinder *)
  Definition cu_single (t : turbine) (o : opts) (Model : string) (chi g : N)
             (Ylist : list (list pt)) (u : list pt) : result (list pt) :=
    fold_left (fun acc Y =>
      let* u := acc in
      let* u := if o_tang o && negb (g =? #0)
                then let* v := cu_tang1 t o Model chi g Y in Ok (fadd u v) else Ok u in
      let* gl := gl_active1 t (o_longi o) in
      match gl with
      | Some gl => let* v := cu_longi1 t Model chi gl Y in Ok (fadd u v)
      | None => Ok u
      end) Ylist (Ok u).

  (** WindTurbine.py:347-377: several cylinders.  Radii are self.r.  Simplification: the exception of line 377 has a second argument, not kept *)
  Definition cu_multi (t : turbine) (o : opts) (Model : string) (chi : N) (gs : list N)
             (ground : bool) (cyl : pt) (pts : list pt) (u : list pt) : result (list pt) :=
    let m := ntan N chi in
    if String.eqb Model "VC" then
      match t_r t, t_gl t with
      | None, _ => Err ETypeError
      | _, None => Err EAttributeError
      | Some r, Some gl =>
          if negb (Nat.eqb (len gs) (len r)) then Err EValueError
          else if match gl with Some gl => negb (Nat.eqb (len gl) (len r)) | None => false end
          then Err EValueError
          else
            let u := if o_tang o then
                       fadd u (if skewed chi
                               then svcs_tang_u 180 ground
                                      [(cyl, map2 (fun g r => (g, r, m)) gs r)] pts
                               else vcs_tang_u (#0) ground [(cyl, map2 pair gs r)] pts)
                     else u in
            let u := match o_longi o, gl with
                     | true, Some gl =>
                         fadd u (if skewed chi
                                 then svcs_longi_u 180 ground
                                        [(cyl, map2 (fun g r => (g, r, m)) gl r)] pts
                                 else vcs_longi_u ground [(cyl, map2 pair gl r)] pts)
                     | _, _ => u
                     end in
            Ok u
      end
    else Err (ENotImplemented ("Model" ++ Model)).

  (** WindTurbine.py:383-387: the wake mask, on points relative to the hub *)
  Definition in_wake_tube (R : N) (p : pt) : bool :=
    let '(x, y, z) := p in
    (nsqrt N (sq x + sq y) <? R * #q(1001,1000)) && (z >=? (#q(-60,100) * R)).

  (** WindTurbine.py:246-412.  Returns the turbine after the call (the skew angle
      is cached even if the call raises afterwards) and the result. *)
  Definition compute_u (t : turbine) (o : opts) (pts : list pt) : turbine * result (list pt) :=
    let ground := match o_ground o with Some g => g | None => t_ground t end in
    let Model := match o_Model o with Some m => m | None => t_model t end in
    let M := T_c2g t in
    let ptc := map (transform_T M) pts in
    let chi := chi_now t in
    let t' := set_chif t (Some chi) in
    (t',
     match t_gt t with
     | None => Err (EException "Please set loading with `update_loading` before calling `compute_u`")
     | Some gs =>
         let cyl := transform_T M (t_rhub t) in
         let pt0 := map (shift cyl) ptc in
         let Ylist := ylist ground cyl ptc in
         let* u := cu_root t o chi Ylist (fzero pts) in
         let* u := match gs with
                   | [g] => cu_single t o Model chi g Ylist u
                   | _ => cu_multi t o Model chi gs ground cyl ptc u
                   end in
         let u := if o_no_wake o
                  then map2 (fun p v => if in_wake_tube (t_R t) p then (#0, #0, #0) else v) pt0 u
                  else u in
         let ug := map (transform M) u in
         Ok (if o_only_ind o then ug else map (fun v => vadd v (t_U0 t)) ug)
     end).
End Turbine.
Arguments turbine : clear implicits.
Arguments opts : clear implicits.
