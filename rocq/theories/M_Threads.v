(** * Calls as sequences of attribute accesses: threads and interruptions

    A method of WindTurbine or WindFarm is here a program that reads and assigns attributes of shared objects one at a time, in the order of the
    source; everything else it does is local.  CPython runs one bytecode at a time, and an attribute access is one bytecode: threads interleave,
    and a KeyboardInterrupt arrives, between two accesses.
    Simplifications: the numpy arrays held by the attributes are values (M_Alias.v, M_AliasLoad.v model their sharing); reads whose value is not
    used are left out; a second read of gamma_t, gamma_l, Gamma_r or chi that finds a value the first read excluded raises ValueError or TypeError. *)
From Coq Require Import ZArith List Bool String Arith.
From Verif Require Import Num M_Elliptic M_Line M_Ring M_Cylinder M_Skewed M_Doublet M_Misc M_Solver M_Turbine M_Farm.
Import ListNotations.
Local Open Scope num_scope.
Local Notation len := List.length.

Section Threads.
  Context {N : Num}.
  Notation pt := (N * N * N)%type.
  Notation mat := (pt * pt * pt)%type.

  (** The attributes (WindTurbine.py:77-121, 172-189); [aClass]: the lookup of a method of the class *)
  Inductive attr : Type -> Type :=
  | aClass : attr unit
  | aR : attr N | aHub : attr pt | aShaft : attr pt | aShaft0 : attr pt | aVert : attr pt | aHorz : attr pt
  | aTc2wt : attr mat | aTwt2g : attr mat | aYaw : attr N | aU0 : attr pt
  | ar : attr (option (list N)) | aGt : attr (option (list N)) | aGl : attr (option (option (list N))) | aGr : attr (option N)
  | aLambda : attr (option N) | aGround : attr bool | aChi : attr (option N) | aModel : attr string | aCt : attr (option (option (list N))).
  (** Python: reading an attribute (WindTurbine.py:264-408) *)
  Definition get {B} (a : attr B) : turbine N -> B :=
    match a in attr B return turbine N -> B with
    | aClass => fun _ => tt
    | aR => t_R | aHub => t_rhub | aShaft => t_shaft | aShaft0 => t_shaft0 | aVert => t_vert | aHorz => t_horz
    | aTc2wt => t_Tc2wt | aTwt2g => t_Twt2g | aYaw => t_yaw | aU0 => t_U0
    | ar => t_r | aGt => t_gt | aGl => t_gl | aGr => t_Gr
    | aLambda => t_Lambda | aGround => t_ground | aChi => t_chi | aModel => t_model | aCt => t_Ct
    end.
  (** Python: assigning an attribute (WindTurbine.py:112-121, 172-189, 244, 276); the other attributes are assigned by the constructor only *)
  Definition put {B} (a : attr B) : B -> turbine N -> turbine N :=
    match a in attr B return B -> turbine N -> turbine N with
    | aHub => fun v t => set_rhub t v
    | aU0 => fun v t => set_U0 t v
    | aYaw => fun v t => set_yawf t v (t_Twt2g t) (t_shaft t)
    | aTwt2g => fun v t => set_yawf t (t_yaw t) v (t_shaft t)
    | aShaft => fun v t => set_yawf t (t_yaw t) (t_Twt2g t) v
    | aChi => fun v t => set_chif t v
    | aGt => fun v t => set_gt t v
    | aGl => fun v t => match v with Some v => set_gl t v | None => t end
    | aGr => fun v t => set_Gr t v
    | aLambda => fun v t => set_Lambda t v
    | ar => fun v t => set_r t v
    | aCt => fun v t => match v with Some v => set_Ct t v | None => t end
    | _ => fun _ t => t
    end.

  (** Programs: the accesses made, one by one; the local computations are in the continuations *)
  Inductive prog (A : Type) : Type :=
  | Ret (x : result A)
  | Get (i : nat) {B : Type} (a : attr B) (k : result B -> prog A)
  | Put (i : nat) {B : Type} (a : attr B) (v : B) (k : prog A).
  Arguments Ret {A} x.
  Arguments Get {A} i {B} a k.
  Arguments Put {A} i {B} a v k.
  (** Python: one program after the other, whether it raised or not *)
  Fixpoint thenP {A B} (p : prog A) (k : result A -> prog B) : prog B :=
    match p with
    | Ret x => k x
    | Get i a c => Get i a (fun v => thenP (c v) k)
    | Put i a v c => Put i a v (thenP c k)
    end.
  (** Python: statement sequence; an exception ends it *)
  Definition bindP {A B} (p : prog A) (k : A -> prog B) : prog B :=
    thenP p (fun r => match r with Ok a => k a | Err e => Ret (Err e) end).
  Local Notation "'do' x <- m ; k" := (bindP m (fun x => k)) (at level 200, x pattern, m at level 100, k at level 200, right associativity).
  Definition readP {B} (i : nat) (a : attr B) : prog B := Get i a (fun v => Ret v).
  Definition writeP {B} (i : nat) (a : attr B) (v : B) : prog unit := Put i a v (Ret (Ok tt)).
  Definition lift {A} (r : result A) : prog A := Ret r.
  Definition someP {B} (i : nat) (a : attr (option B)) (e : exn) : prog B := do v <- readP i a; lift (match v with Some b => Ok b | None => Err e end).

  (** ** The methods *)
  (** WindTurbine.py:191-203 *)
  Definition yaw_windP (i : nat) : prog N :=
    do u1 <- readP i aU0; do u2 <- readP i aU0; do v1 <- readP i aVert; do v2 <- readP i aVert;
    let u_horz := vsub u1 (vscale (dot u2 v1) v2) in
    let e_w := vdivs u_horz (norm u_horz) in
    do h <- readP i aHorz; do u3 <- readP i aU0; do v3 <- readP i aVert;
    let sign := nsign N (dot (cross h u3) v3) in
    do h2 <- readP i aHorz;
    let ac := nacos N (dot e_w h2) in
    lift (Ok (if sign =? #0 then ac else sign * ac)).
  (** WindTurbine.py:205-217 *)
  Definition yaw_errorP (i : nat) : prog N :=
    do u1 <- readP i aU0; do u2 <- readP i aU0;
    let e_w := vdivs u1 (norm u2) in
    do s1 <- readP i aShaft; do v1 <- readP i aVert;
    let yaw_sign := nsign N (dot (cross e_w s1) v1) in
    do s2 <- readP i aShaft;
    lift (Ok (yaw_sign * nacos N (dot e_w s2))).
  (** WindTurbine.py:237-239 *)
  Fixpoint disk_loopP (i : nat) (e_r : pt) (ths : list N) : prog (list pt) :=
    match ths with
    | [] => lift (Ok [])
    | th :: ths =>
        do s <- readP i aShaft; do c <- readP i aHub;
        do l <- disk_loopP i e_r ths;
        lift (Ok (vadd c (mvec (RotMat_AxisAngle s th) e_r) :: l))
    end.
  (** WindTurbine.py:233-240 *)
  Definition rotor_diskP (i : nat) (nP : nat) : prog (list pt) :=
    do Rt <- readP i aR; do s <- readP i aShaft;
    do o <- lift (orth_vect s);
    disk_loopP i (vscale Rt o) (linspace (#0) (#2 * npi N) nP).

  (** WindTurbine.py:274-276 *)
  Definition chiP (i : nat) (e_vert_c : pt) : prog unit :=
    do c <- readP i aChi;
    match c with
    | Some _ => lift (Ok tt)
    | None => do w <- yaw_windP i; do y <- readP i aYaw;
              writeP i aChi (Some (nsign N (snd (fst e_vert_c)) * (w - y)))
    end.
  (** WindTurbine.py:299,312,334,361,369 *)
  Definition skewedP (i : nat) : prog bool := do c <- someP i aChi ETypeError; lift (Ok (skewed c)).
  (** WindTurbine.py:298-305 *)
  Fixpoint root_loopP (i : nat) (m : N) (Yl : list (list pt)) (u : list pt) : prog (list pt) :=
    match Yl with
    | [] => lift (Ok u)
    | Y :: Yl =>
        do sk <- skewedP i; do G <- someP i aGr ETypeError;
        do v <- lift (if sk then svc_root_u G m false Y else Ok (vc_root_u G false Y));
        root_loopP i m Yl (fadd u v)
    end.
  (** WindTurbine.py:297: root and (self.Gamma_r is not None) and self.Gamma_r!=0 *)
  Definition rootP (i : nat) (o : opts N) (m : N) (Yl : list (list pt)) (u : list pt) : prog (list pt) :=
    if o_root o then
      do G <- readP i aGr;
      match G with
      | None => lift (Ok u)
      | Some _ => do G <- someP i aGr ETypeError; if G =? #0 then lift (Ok u) else root_loopP i m Yl u
      end
    else lift (Ok u).
  (** WindTurbine.py:311-343: gamma_t (or gamma_l) of a single cylinder *)
  Definition oneP (i : nat) (a : attr (option (list N))) : prog N :=
    do g <- someP i a ETypeError; lift (match g with [g] => Ok g | _ => Err EValueError end).
  (** WindTurbine.py:312-329 *)
  Definition tang1P (i : nat) (o : opts N) (Model : string) (m : N) (Y : list pt) : prog (list pt) :=
    do sk <- skewedP i;
    if sk then
      if String.eqb Model "VC" then do g <- oneP i aGt; do Rt <- readP i aR; lift (Ok (map (svc_tang_u g Rt m 180 false) Y))
      else lift (Err (ENotImplemented ("Model " ++ Model ++ ", with yaw.")))
    else if String.eqb Model "VC" then do g <- oneP i aGt; do Rt <- readP i aR; lift (Ok (vc_tang_u g Rt (#0) Y))
    else if String.eqb Model "VCFF" then do g <- oneP i aGt; do Rt <- readP i aR; lift (vc_tang_u_doublet g Rt (o_far o) Y)
    else if String.eqb Model "VD" then do g <- oneP i aGt; do Rt <- readP i aR; lift (Ok (map (doublet_line_u (g * sq Rt * npi N) (#0) (ninf N)) Y))
    else if String.eqb Model "SS" then
      do g <- oneP i aGt; do Rt <- readP i aR;
      lift (Ok (map (fun p => let uz := ss_u g Rt ss_lambda ss_eta p in (uz * #0, uz * #0, uz)) Y))
    else lift (Err (ENotImplemented ("Model" ++ Model))).
  (** WindTurbine.py:333: gamma_l where it must be an array *)
  Definition glP (i : nat) : prog (list N) :=
    do g <- someP i aGl EAttributeError; lift (match g with Some l => Ok l | None => Err ETypeError end).
  (** WindTurbine.py:333-343 *)
  Definition longi1P (i : nat) (o : opts N) (Model : string) (m : N) (Y u : list pt) : prog (list pt) :=
    if negb (o_longi o) then lift (Ok u)
    else
      do g <- someP i aGl EAttributeError;
      match g with
      | None => lift (Ok u)
      | Some _ =>
          do l <- glP i;
          match l with
          | [g] =>
              if g =? #0 then lift (Ok u)
              else
                do sk <- skewedP i;
                let one := do l <- glP i; lift (match l with [g] => Ok g | _ => Err EValueError end) in
                do v <- (if sk then
                           if String.eqb Model "VC" then do g <- one; do Rt <- readP i aR; lift (Ok (map (svc_longi_u g Rt m 180 false) Y))
                           else lift (Err (ENotImplemented ("Model " ++ Model ++ ", longi component.")))
                         else if String.eqb Model "VC" then do g <- one; do Rt <- readP i aR; lift (Ok (vc_longi_u g Rt false Y))
                         else lift (Err (ENotImplemented ("Model" ++ Model ++ ", longi component."))));
                lift (Ok (fadd u v))
          | _ => lift (Err EValueError)
          end
      end.
  (** WindTurbine.py:310-346 *)
  Fixpoint single_loopP (i : nat) (o : opts N) (Model : string) (m : N) (Yl : list (list pt)) (u : list pt) : prog (list pt) :=
    match Yl with
    | [] => lift (Ok u)
    | Y :: Yl =>
        do u <- (if o_tang o then
                   do g <- oneP i aGt;
                   if g =? #0 then lift (Ok u) else do v <- tang1P i o Model m Y; lift (Ok (fadd u v))
                 else lift (Ok u));
        do u <- longi1P i o Model m Y u;
        single_loopP i o Model m Yl u
    end.
  (** WindTurbine.py:350-377 *)
  Definition multiP (i : nat) (o : opts N) (Model : string) (m : N) (ground : bool) (cyl : pt) (pts u : list pt) : prog (list pt) :=
    if String.eqb Model "VC" then
      do r0 <- someP i ar ETypeError;
      let nr := len r0 in
      do gs <- someP i aGt ETypeError;
      if negb (Nat.eqb (len gs) nr) then lift (Err EValueError)
      else
        do gl <- someP i aGl EAttributeError;
        do gl <- match gl with
                 | None => lift (Ok None)
                 | Some _ => do l <- glP i; lift (if negb (Nat.eqb (len l) nr) then Err EValueError else Ok (Some l))
                 end;
        do r <- someP i ar ETypeError;
        if negb (Nat.eqb (len r) nr) then lift (Err EValueError)
        else
          do u <- (if o_tang o then
                     do sk <- skewedP i;
                     lift (Ok (fadd u (if sk then svcs_tang_u 180 ground [(cyl, map2 (fun g r => (g, r, m)) gs r)] pts
                                       else vcs_tang_u (#0) ground [(cyl, map2 pair gs r)] pts)))
                   else lift (Ok u));
          (if o_longi o then
             do g <- someP i aGl EAttributeError;
             match g with
             | None => lift (Ok u)
             | Some _ =>
                 match gl with
                 | None => lift (Err (EUnboundLocal "gamma_l"))
                 | Some gl =>
                     do sk <- skewedP i;
                     lift (Ok (fadd u (if sk then svcs_longi_u 180 ground [(cyl, map2 (fun g r => (g, r, m)) gl r)] pts
                                       else vcs_longi_u ground [(cyl, map2 pair gl r)] pts)))
                 end
             end
           else lift (Ok u))
    else lift (Err (ENotImplemented ("Model" ++ Model))).
  (** WindTurbine.py:383-387: R is read twice *)
  Definition in_tube2 (R1 R2 : N) (p : pt) : bool :=
    let '(x, y, z) := p in
    (nsqrt N (sq x + sq y) <? R2 * #q(1001,1000)) && (z >=? (#q(-60,100) * R1)).
  (** WindTurbine.py:264-404: the induced velocities, in global coordinates *)
  Definition inducedP (i : nat) (o : opts N) (pts : list pt) : prog (list pt) :=
    do ground <- match o_ground o with Some g => lift (Ok g) | None => readP i aGround end;
    do Model <- match o_Model o with Some m => lift (Ok m) | None => readP i aModel end;
    do M1 <- readP i aTwt2g; do M2 <- readP i aTc2wt;
    let M := mmul M1 M2 in
    let ptc := map (transform_T M) pts in
    do v <- readP i aVert;
    do _ <- chiP i (mvec (mtr M) v);
    do g <- readP i aGt;
    match g with
    | None => lift (Err (EException "Please set loading with `update_loading` before calling `compute_u`"))
    | Some _ =>
        do c <- someP i aChi ETypeError;
        let m := ntan N c in
        do h0 <- readP i aHub; do h1 <- readP i aHub; do h2 <- readP i aHub;
        let cyl := transform_T M (fst (fst h0), snd (fst h1), snd h2) in
        let pt0 := map (shift cyl) ptc in
        let Ylist := ylist ground cyl ptc in
        do u <- rootP i o m Ylist (fzero pts);
        do gs <- someP i aGt ETypeError;
        do u <- (if Nat.eqb (len gs) 1 then single_loopP i o Model m Ylist u else multiP i o Model m ground cyl ptc u);
        do u <- (if o_no_wake o then
                   do R1 <- readP i aR; do R2 <- readP i aR;
                   lift (Ok (map2 (fun p v => if in_tube2 R1 R2 p then (#0, #0, #0) else v) pt0 u))
                 else lift (Ok u));
        lift (Ok (map (transform M) u))
    end.
  (** WindTurbine.py:246-412; lines 405-409: the free stream, one component at a time *)
  Definition compute_uP (i : nat) (o : opts N) (pts : list pt) : prog (list pt) :=
    do ug <- inducedP i o pts;
    if o_only_ind o then lift (Ok ug)
    else do w0 <- readP i aU0; do w1 <- readP i aU0; do w2 <- readP i aU0;
         lift (Ok (map (fun v => vadd v (fst (fst w0), snd (fst w1), snd w2)) ug)).
  (** WindFarm.py:42-46 *)
  Fixpoint field_loopP (f : farm) (o : opts N) (pts u : list pt) : prog (list pt) :=
    match f with
    | [] => lift (Ok u)
    | i :: f => do _ <- readP i aClass; do v <- compute_uP i (farm_opts o) pts; field_loopP f o pts (fadd u v)
    end.
  (** WindFarm.py:24-53 *)
  Definition fieldP (f : farm) (o : opts N) (U0 : option pt) (pts : list pt) : prog (list pt) :=
    do u <- field_loopP f o pts (fzero pts);
    lift (Ok (match U0 with None => u | Some U => map (fun v => vadd v U) u end)).
  (** WindFarm.py:60-62 *)
  Fixpoint layout_getP (f : farm) : prog (list pt) :=
    match f with
    | [] => lift (Ok [])
    | i :: f => do p <- readP i aHub; do l <- layout_getP f; lift (Ok (p :: l))
    end.

  (** WindTurbine.py:108-115 *)
  Definition yawP (i : nat) (yaw : N) : prog unit :=
    do _ <- writeP i aYaw yaw;
    do v <- readP i aVert;
    do _ <- writeP i aTwt2g (RotMat_AxisAngle v yaw);
    do M <- readP i aTwt2g; do s0 <- readP i aShaft0;
    writeP i aShaft (mvec M s0).
  (** WindTurbine.py:176,178: the assignment of a tuple is three assignments *)
  Definition assign3P (i : nat) (g : list N) (gl : option (list N)) (Gr : option N) : prog unit :=
    do _ <- writeP i aGt (Some g); do _ <- writeP i aGl (Some gl); writeP i aGr Gr.
  (** WindTurbine.py:123-189 *)
  Definition loadP (i : nat) (minim : (N -> N) -> N -> N -> N) (r Ct Gamma : option (list N)) (Lambda : option N) (nCyl : option nat)
             (f : option (list N -> result (list N))) : prog unit :=
    do U <- readP i aU0;
    let U0 := norm U in
    do R0 <- (match nCyl with None => lift (Ok (#0)) | Some _ => readP i aR end);
    do (r, Ct, Gamma) <- lift (load_interp R0 r Ct Gamma nCyl);
    do L <- (match Lambda with Some l => lift (Ok (Some l)) | None => readP i aLambda end);
    match L with
    | None => lift (Err (EException "Provide `Lambda` for update_loading."))
    | Some L =>
        do R1 <- readP i aR;
        let Omega := L * U0 / R1 in
        do _ <- match f, Ct, Gamma with
                | Some f, None, _ => lift (Err (EException "Provide `Ct` along `gamma_t_Ct`"))
                | Some f, Some c, _ => do g <- lift (f c); assign3P i g None None
                | None, Some c, _ =>
                    do R2 <- readP i aR;
                    do w <- lift (let* rr := need r in WakeVorticityFromCt minim rr c R2 U0 Omega);
                    assign3P i (w_gt w) (w_gl w) (w_Gr w)
                | None, None, Some g =>
                    do R2 <- readP i aR;
                    do w <- lift (let* rr := need r in WakeVorticityFromGamma rr g R2 U0 Omega);
                    assign3P i (w_gt w) (w_gl w) (w_Gr w)
                | None, None, None => lift (Err (EException "Unknown loading spec"))
                end;
        do _ <- writeP i aLambda (Some L);
        do _ <- writeP i ar r;
        writeP i aCt (Some Ct)
    end.
  (** WindFarm.py:70-73 *)
  Fixpoint layout_loopP (f : farm) (rows : list pt) : prog unit :=
    match f, rows with
    | i :: f, p :: rows => do _ <- readP i aClass; do _ <- writeP i aHub p; layout_loopP f rows
    | _, _ => lift (Ok tt)
    end.
  (** WindFarm.py:64-73 *)
  Definition layout_setP (f : farm) (layout : list (list N)) : prog unit :=
    match rows3 layout with
    | Some rows => if Nat.eqb (len rows) (len f) then layout_loopP f rows else lift (Err (EException "Wrong layout shape."))
    | None => lift (Err (EException "Wrong layout shape."))
    end.

  (** ** Calls *)
  Inductive call :=
  | QU (i : nat) (o : opts N) (pts : list pt)                       (** WindTurbine.py:246 compute_u *)
  | QYawWind (i : nat)                                              (** WindTurbine.py:192 *)
  | QYawErr (i : nat)                                               (** WindTurbine.py:206 *)
  | QDisk (i : nat) (nP : nat)                                      (** WindTurbine.py:233 *)
  | QField (f : farm) (o : opts N) (U0 : option pt) (pts : list pt) (** WindFarm.py:24 velocity_field *)
  | QLayout (f : farm)                                              (** WindFarm.py:60 *)
  | CYaw (i : nat) (yaw : N)                                        (** WindTurbine.py:108 *)
  | CPos (i : nat) (p : pt)                                         (** WindTurbine.py:117 *)
  | CWind (i : nat) (p : pt)                                        (** WindTurbine.py:120 *)
  | CChi (i : nat) (c : N)                                          (** WindTurbine.py:243 *)
  | CLoad (i : nat) (minim : (N -> N) -> N -> N -> N) (r Ct Gamma : option (list N)) (Lambda : option N) (nCyl : option nat)
          (f : option (list N -> result (list N)))                  (** WindTurbine.py:123 *)
  | CLayout (f : farm) (layout : list (list N)).                    (** WindFarm.py:64 *)
  (** what a call returns *)
  Inductive outcome := OVel (l : list pt) | ONum (x : N) | ONone.
  Definition rmap {A B} (f : A -> B) (r : result A) : result B := match r with Ok a => Ok (f a) | Err e => Err e end.
  Definition mapP {A B} (f : A -> B) (p : prog A) : prog B := thenP p (fun r => Ret (rmap f r)).
  (** the accesses of each call; the method is first looked up in the object (WindTurbine.py:60, WindFarm.py:11) *)
  Definition callP (c : call) : prog outcome :=
    match c with
    | QU i o pts => do _ <- readP i aClass; mapP OVel (compute_uP i o pts)
    | QYawWind i => do _ <- readP i aClass; mapP ONum (yaw_windP i)
    | QYawErr i => do _ <- readP i aClass; mapP ONum (yaw_errorP i)
    | QDisk i nP => do _ <- readP i aClass; mapP OVel (rotor_diskP i nP)
    | QField f o U0 pts => mapP OVel (fieldP f o U0 pts)
    | QLayout f => mapP OVel (layout_getP f)
    | CYaw i yaw => do _ <- readP i aClass; mapP (fun _ => ONone) (yawP i yaw)
    | CPos i p => do _ <- readP i aClass; mapP (fun _ => ONone) (writeP i aHub p)
    | CWind i p => do _ <- readP i aClass; mapP (fun _ => ONone) (writeP i aU0 p)
    | CChi i c => do _ <- readP i aClass; mapP (fun _ => ONone) (writeP i aChi (Some c))
    | CLoad i minim r Ct Gamma Lambda nCyl f => do _ <- readP i aClass; mapP (fun _ => ONone) (loadP i minim r Ct Gamma Lambda nCyl f)
    | CLayout f l => mapP (fun _ => ONone) (layout_setP f l)
    end.
  (** a thread: calls one after the other, each outcome (or exception, caught) kept *)
  Fixpoint thread (cs : list call) : prog (list (result outcome)) :=
    match cs with
    | [] => Ret (Ok [])
    | c :: cs => thenP (callP c) (fun r => thenP (thread cs) (fun rs => Ret (rmap (cons r) rs)))
    end.

  (** ** Execution *)
  Definition lookup {B} (h : heap N) (i : nat) (a : attr B) : result B :=
    match nth_error h i with Some (OWT t) => Ok (get a t) | _ => Err EAttributeError end.
  Definition store {B} (h : heap N) (i : nat) (a : attr B) (v : B) : heap N :=
    match nth_error h i with Some (OWT t) => upd h i (OWT (put a v t)) | _ => h end.
  (** alone, to the end *)
  Fixpoint run {A} (h : heap N) (p : prog A) : heap N * result A :=
    match p with
    | Ret x => (h, x)
    | Get i a k => run h (k (lookup h i a))
    | Put i a v k => run (store h i a v) k
    end.
  (** alone, interrupted after [n] accesses: the heap left *)
  Fixpoint stop {A} (n : nat) (h : heap N) (p : prog A) : heap N :=
    match n, p with
    | O, _ => h
    | _, Ret _ => h
    | S n, Get i a k => stop n h (k (lookup h i a))
    | S n, Put i a v k => stop n (store h i a v) k
    end.
  (** one access by one of several threads *)
  Inductive istep {A} : heap N * list (prog A) -> heap N * list (prog A) -> Prop :=
  | t_get h ps j i B (a : attr B) k : nth_error ps j = Some (Get i a k) -> istep (h, ps) (h, upd ps j (k (lookup h i a)))
  | t_put h ps j i B (a : attr B) v k : nth_error ps j = Some (Put i a v k) -> istep (h, ps) (store h i a v, upd ps j k).
  (** any interleaving *)
  Inductive isteps {A} : heap N * list (prog A) -> heap N * list (prog A) -> Prop :=
  | t_refl c : isteps c c
  | t_more c c' c'' : isteps c c' -> istep c' c'' -> isteps c c''.
End Threads.
Arguments prog : clear implicits.
Arguments call : clear implicits.
Arguments outcome : clear implicits.
Arguments Ret {N A} x.
Arguments Get {N A} i {B} a k.
Arguments Put {N A} i {B} a v k.
