(** * Models of wiz/article_blockage/helper_functions.py, wiz/plotting_functions.py
      and of the helpers of the article_skew tests and the skewed-cylinder examples *)
From Coq Require Import ZArith List Bool String.
From Verif Require Import Num M_Solver M_Turbine M_Farm.
Import ListNotations.
Local Open Scope num_scope.
Local Notation len := List.length.

Section Helpers.
  Context {N : Num}.
  Notation pt := (N * N * N)%type.

  (** np.isnan (test_Skew_TangentialVorticity.py:rsquare): only a NaN differs from itself *)
  Definition isnan (x : N) : bool := negb (x =? x).
  (** ndarray.argmin of a 1-d array (helper_functions.py:55): first minimum; a NaN counts as the minimum
      (numpy returns the position of the first NaN). *)
  Fixpoint argmin_go (best : N) (ibest i : nat) (l : list N) : nat :=
    match l with
    | [] => ibest
    | x :: l => if isnan best then ibest
                else if isnan x || (x <? best) then argmin_go x i (S i) l
                else argmin_go best ibest (S i) l
    end.
  (** ndarray.argmin (helper_functions.py:55).  Empty array: ValueError. *)
  Definition argmin (l : list N) : result nat :=
    match l with [] => Err EValueError | x :: l => Ok (argmin_go x 0 1 l) end.
  (** helper_functions.py:53-56 *)
  Definition find_nearest (array : list N) (value : N) : result (N * nat) :=
    let* idx := argmin (map (fun a => nabs N (a - value)) array) in
    Ok (nth idx array (nnan N), idx).

  (** helper_functions.py:69-76 *)
  Definition gamma_CT_fun (p : list N) (x : N) : result N :=
    match p with
    | p0 :: p1 :: p2 :: p3 :: _ =>
        Ok ((- #2) * (p0 * x + p1 * sq x + p2 * cube x + p3 * pow4 x))
    | _ => Err EIndexError
    end.

  (** helper_functions.py:84,97,103: np.mean(np.abs(a-b)/a)*100 *)
  Definition mean_rel (u1 u2 : list N) : N :=
    np_mean (map2 (fun a b => nabs N (a - b) / a) u1 u2) * #100.
  (** helper_functions.py:78-85 *)
  Definition relerrinduction (X U1 U2 : list N) (x1 x2 : N) : result N :=
    let Xprobe := linspace x1 x2 100 in
    let* U1p := np_interp Xprobe X U1 in
    let* U2p := np_interp Xprobe X U2 in
    match U1 with
    | [] => Err EIndexError
    | _ => let e := List.last U1 (nnan N) in
           Ok (mean_rel (map (fun u => u / e) U1p) (map (fun u => u / e) U2p))
    end.
  (** helper_functions.py:94-98 and 100-104, with the abscissa as a parameter *)
  Definition relerrinduction_at (x : N) (X U1 U2 : list N) : result N :=
    let* u1 := np_interp [x] X U1 in
    let* u2 := np_interp [x] X U2 in
    Ok (mean_rel u1 u2).
  (** helper_functions.py:94-98 *)
  Definition relerrinduction_mid := relerrinduction_at (#0).
  (** helper_functions.py:100-104 *)
  Definition relerrinduction_25 := relerrinduction_at (#q(-25,10)).

  (** test_Skew_TangentialVorticity.py:33-72 (the same function is copied in the
      other article_skew tests).  1-d arrays; python's max(0,x) keeps 0 unless x>0,
      so a NaN gives 0. *)
  Definition rsquare (y f : list N) (c : bool) : result (N * N) :=
    if negb (Nat.eqb (len y) (len f)) then Err (EException "Y and F must be the same size")
    else
      let yf := filter (fun p => negb (isnan (fst p) || isnan (snd p))) (map2 pair y f) in
      let y := map fst yf in
      let f := map snd yf in
      let ss := nsum (map2 (fun y f => sq (y - f)) y f) in
      let r2 := if c then
                  let r := #1 - ss / nsum (map (fun v => sq (v - np_mean y)) y) in
                  if r >? #0 then r else #0
                else
                  let r := #1 - ss / nsum (map sq y) in
                  if r <? #0 then #0 else r in
      Ok (r2, nsqrt N (np_mean (map2 (fun y f => sq (y - f)) y f))).
  (** helper_functions.py:87-92 ([rsquare] there is the one imported from welib) *)
  Definition r2induction (X U1 U2 : list N) : result N :=
    let Xprobe := linspace (#q(-499,100)) (- #1) 100 in
    let* U1p := np_interp Xprobe X U1 in
    let* U2p := np_interp Xprobe X U2 in
    let* r := rsquare U1p U2p true in
    Ok (fst r).

  (** examples/VortexCylinderSkewed.py:64-80 (also VortexCylinderSkewedSuperp.py:105-121
      and advanced/VortexCylinderSkewedLIC.py:81-97) *)
  Definition Tw2c (bWindCoord : bool) (theta_yaw : N) (p : pt) : pt :=
    let '(x_w, y_w, z_w) := p in
    if bWindCoord then
      (x_w * ncos N theta_yaw + z_w * nsin N theta_yaw, y_w,
       - x_w * nsin N theta_yaw + z_w * ncos N theta_yaw)
    else (x_w, y_w, z_w).
  (** examples/VortexCylinderSkewed.py:64-80, from cylinder to wind coordinates *)
  Definition Tc2w (bWindCoord : bool) (theta_yaw : N) (p : pt) : pt :=
    let '(x_c, y_c, z_c) := p in
    if bWindCoord then
      (x_c * ncos N theta_yaw - z_c * nsin N theta_yaw, y_c,
       x_c * nsin N theta_yaw + z_c * ncos N theta_yaw)
    else (x_c, y_c, z_c).

  (** helper_functions.py:334-427 (OutputAD): plane data on a grid.  [ad_h] is
      self.x (Horizontal) or self.y; fields are matrices indexed [iz][ih].  Simplification: one field (the axial
      one, W); the others are treated alike. *)
  Record adplane := { ad_h : list N; ad_z : list N; ad_W : list (list N) }.
  (** numpy indexing M[i,j] (helper_functions.py:385,389) *)
  Definition entry (M : list (list N)) (i j : nat) : N := nth j (nth i M []) (nnan N).
  (** helper_functions.py:381-390 fCenter *)
  Definition fCenter (AD : adplane) : result N :=
    let* h := find_nearest (ad_h AD) (#0) in
    let* z := find_nearest (ad_z AD) (#0) in
    Ok (entry (ad_W AD) (snd z) (snd h)).
  (** helper_functions.py:392-408 fAxial, the axial component: self.Z[:,ih] is the
      column of z values *)
  Definition ad_fAxial (AD : adplane) (z : list N) : result (list N) :=
    let* h := find_nearest (ad_h AD) (#0) in
    np_interp z (ad_z AD) (map (fun row => nth (snd h) row (nnan N)) (ad_W AD)).
  (** helper_functions.py:410-427 fRadial, the axial component: self.X[iz,:] is the
      row of h values *)
  Definition ad_fRadial (AD : adplane) (r : list N) (z0 : N) : result (list N) :=
    let* z := find_nearest (ad_z AD) z0 in
    np_interp r (ad_h AD) (nth (snd z) (ad_W AD) []).

  (** helper_functions.py:433,439,446,452: options of every query *)
  Definition vc_opts : opts N :=
    {| o_only_ind := false; o_longi := false; o_tang := true; o_root := false;
       o_no_wake := false; o_ground := None; o_Model := None; o_far := #6 |}.
  (** helper_functions.py:429, 555-595 (OutputVC): attributes WT and h_hub *)
  Record vcmodel := { vc_WT : turbine N; vc_hub : N }.
  (** helper_functions.py:433,439,446,452,460,465: compute_u(x,y,z,longi=False,root=False) *)
  Definition vc_query (VC : vcmodel) (pts : list pt) : vcmodel * result (list pt) :=
    let '(t, u) := compute_u (vc_WT VC) vc_opts pts in ({| vc_WT := t; vc_hub := vc_hub VC |}, u).
  (** helper_functions.py:431-434 *)
  Definition vc_fU (VC : vcmodel) (pts : list pt) :=
    vc_query VC (map (fun p => let '(x, y, z) := p in (x, y + vc_hub VC, z)) pts).
  (** np.meshgrid(vx,vz) raveled (helper_functions.py:437,443): row k is vz[k], entries vx *)
  Definition meshgrid (xs zs : list N) : list (N * N) :=
    List.concat (map (fun z => map (fun x => (x, z)) xs) zs).
  (** helper_functions.py:436-440 (doublet_far_field is accepted and ignored; columns X,Z,U,W of the answer are the caller's) *)
  Definition vc_fHorz (VC : vcmodel) (vx vz : list N) :=
    vc_query VC (map (fun xz => (fst xz, fst xz * #0 + vc_hub VC, snd xz)) (meshgrid vx vz)).
  (** helper_functions.py:442-447 *)
  Definition vc_fVert (VC : vcmodel) (vy vz : list N) :=
    vc_query VC (map (fun yz => (snd yz * #0, fst yz + vc_hub VC, snd yz)) (meshgrid vy vz)).
  (** helper_functions.py:449-453 *)
  Definition vc_fAxial (VC : vcmodel) (z : list N) :=
    vc_query VC (map (fun z => (z * #0, z * #0 + vc_hub VC, z)) z).
  (** helper_functions.py:455-466 *)
  Definition vc_fRadial (VC : vcmodel) (Horizontal : bool) (r : list N) (z0 : N) :=
    vc_query VC (map (fun r => if Horizontal then (r, r * #0 + vc_hub VC, r * #0 + z0)
                               else (r * #0, r + vc_hub VC, r * #0 + z0)) r).

  (** helper_functions.py:584-587 *)
  Definition setup_chi (CT Yaw : N) : N :=
    Yaw * (#1 + #q(3,10) * (#1 - nsqrt N (#1 - CT))) * npi N / #180.
  (** helper_functions.py:591 *)
  Definition setup_wind (Yaw U0 : N) : pt :=
    (U0 * nsin N (Yaw * npi N / #180), #0, U0 * ncos N (Yaw * npi N / #180)).
  (** helper_functions.py:554-614.  [mid] is Some u when MatchMidVel=True and
      AD.fCenter() returned u.  R=1.  [gamma_t] is the optional argument. *)
  Definition setupModel (minim : (N -> N) -> N -> N -> N) (CT HH Lambda Yaw : N)
             (mid : option N) (U0 : N) (gamma_t : option N) (Model : string) : result vcmodel :=
    let Ground := HH <? #9 in
    let h_hub := HH * #1 in
    let '(cut, nCyl) := if Lambda <? #30 then (#q(10,100), 30%nat) else (#0, 1%nat) in
    let vr_bar := linspace (#0) (#1) 100 in
    let Ct_AD := Ct_const_cutoff CT cut None vr_bar in
    let WT := new_turbine (#1) (#0, h_hub, #0) (#0, #0, #1) (#0, #1, #0) (#0, #0, #10) None
                          (Some (ninf N)) "" Ground Model in
    let WT := update_wind WT (setup_wind Yaw U0) in
    let WT := set_chi WT (setup_chi CT Yaw) in
    let '(WT, r) := update_loading minim (Some (map (fun x => x * #1) vr_bar)) (Some Ct_AD) None
                                   (Some Lambda) (Some nCyl) None WT in
    let* _ := r in
    let WT := match mid with
              | Some u => set_gt WT (Some [- (U0 * ncos N (Yaw * npi N / #180) - u) * #2])
              | None => WT end in
    let WT := match gamma_t with Some g => set_gt WT (Some [g]) | None => WT end in
    Ok {| vc_WT := WT; vc_hub := h_hub |}.

  (** helper_functions.py:277, 320: turbines of radius 0.5 (diameter 1), shaft along x, vertical z *)
  Definition farm_wt (pos : pt) (Ground : bool) (Model : string) : turbine N :=
    new_turbine (#q(5,10)) pos (#1, #0, #0) (#0, #0, #1) (#0, #0, #10) None (Some (ninf N)) ""
                Ground Model.
  (** helper_functions.py:283-289, 323-329: the body of the loop *)
  Definition farm_set (minim : (N -> N) -> N -> N -> N) (gamma_t_Ct : option (list N -> result (list N)))
             (t : turbine N) (CT : N) : turbine N * result unit :=
    let t := update_yaw_pos t (#0) in
    let t := update_wind t (#1, #0, #0) in
    update_loading minim None (Some [CT]) None None (Some 1%nat) gamma_t_Ct t.
  (** helper_functions.py:282, 322: zip(WF,CTs) stops at the shorter one *)
  Fixpoint farm_load (minim : (N -> N) -> N -> N -> N) (f : option (list N -> result (list N)))
           (ts : list (turbine N)) (cts : list N) : result (list (turbine N)) :=
    match ts, cts with
    | t :: ts', c :: cts' =>
        let '(t', r) := farm_set minim f t c in
        let* _ := r in
        let* l := farm_load minim f ts' cts' in Ok (t' :: l)
    | _, _ => Ok ts
    end.
  (** helper_functions.py:322: CTs.T.ravel(); CTs is a matrix given by its rows (shape nx times ny) *)
  Definition transpose_ravel (nx ny : nat) (M : list (list N)) : list N :=
    List.concat (map (fun i => map (fun j => entry M j i) (seq 0 nx)) (seq 0 ny)).
  (** helper_functions.py:303-331 *)
  Definition VCFarmFromFloris (minim : (N -> N) -> N -> N -> N) (nx ny : nat) (CTs : list (list N))
             (HH S : N) (f : option (list N -> result (list N))) (Model : string)
    : result (list (turbine N)) :=
    let* g := gridLayout nx S ny (Some S) HH false in
    let '(yWT, zWT, xWT) := g in
    match zWT with
    | [] => Err EIndexError
    | z0 :: _ =>
        let Ground := z0 <? #10 in
        let ts := map2 (fun xy z => farm_wt (fst xy, snd xy, z) Ground Model)
                       (map2 pair xWT yWT) zWT in
        farm_load minim f ts (transpose_ravel nx ny CTs)
    end.
  (** helper_functions.py:293, 298: options of the query *)
  Definition adfarm_opts (Ground : bool) : opts N :=
    {| o_only_ind := true; o_longi := false; o_tang := true; o_root := false;
       o_no_wake := false; o_ground := Some Ground; o_Model := Some "VC"%string; o_far := #6 |}.
  (** helper_functions.py:264-301; [pos] are the rows of xyz_wt, [mid]/[top] the two
      lines of control points; the axial velocities (first component) are returned *)
  Definition ADFarm2VCFarm (minim : (N -> N) -> N -> N -> N) (pos : list pt) (CTs : list N)
             (f : option (list N -> result (list N))) (mid top : list pt)
    : result (list N * list N) :=
    match rev pos with
    | [] => Err (EUnboundLocal "r_hub")
    | last :: _ =>
        let Ground := (let '(_, _, z) := last in z <? #10) in
        let* ts := farm_load minim f (map (fun p => farm_wt p false "VC") pos) CTs in
        let h := map OWT ts in
        let fm := seq 0 (len ts) in
        let U0 := Some (#1, #0, #0) in
        let '(h', r) := velocity_field h fm (adfarm_opts Ground) U0 mid in
        let* um := r in
        let um := map (fun u : pt => fst (fst u)) um in
        if Nat.ltb 1 (len CTs) then
          let* ut := snd (velocity_field h' fm (adfarm_opts Ground) U0 top) in
          Ok (um, map (fun u : pt => fst (fst u)) ut)
        else Ok (um, map (fun u => u * #0) um)
    end.

  (** np.sort as insertion sort (plotting_functions.py:8-11) *)
  Fixpoint insert (x : N) (l : list N) : list N :=
    match l with [] => [x] | y :: l' => if x <=? y then x :: l else y :: insert x l' end.
  (** np.sort as insertion sort (plotting_functions.py:8-11) *)
  Definition np_sort (l : list N) : list N := fold_right insert [] l.
  (** plotting_functions.py:6-12 *)
  Definition get_contours (CT0 : N) : list N * list N :=
    let lines := if CT0 =? #q(95,100)
      then np_sort [#q(5,10); #q(6,10); #q(7,10); #q(8,10); #q(9,10); #q(95,100); #q(98,100);
                    #q(99,100); #1; #q(101,100)]
      else np_sort [#q(7,10); #q(8,10); #q(85,100); #q(9,10); #q(95,100); #q(98,100);
                    #q(99,100); #q(995,1000); #q(101,100)] in
    (np_sort (lines ++ [#q(14,10); #q(2,10)]), lines).

  (** plotting_functions.py:32-34: one component of the doubled colours.  [seq]
      lists that component of the colours; None at the two ends. *)
  Definition doubled (seq : list N) : list (option N) :=
    let d := List.concat (map (fun s => [Some s; Some s]) seq) in
    match d with [] => [] | _ :: d' => None :: (firstn (len d' - 1) d' ++ [None]) end.
  (** plotting_functions.py:16-48: one component of the colour dictionary; entries are [value, left, right]
      (doubled[2i], doubled[2i+1] for the i-th value).  Colours beyond
      the values are ignored; a missing colour raises IndexError. *)
  Definition make_cdict (seq : list N) (values : option (list N)) : result (list (N * option N * option N)) :=
    match seq with
    | [] => Err EIndexError
    | _ =>
        let values := match values with Some v => v | None => linspace (#0) (#1) (len seq) end in
        mapM (fun iv => match nth_error (doubled seq) (2 * fst iv), nth_error (doubled seq) (2 * fst iv + 1) with
                        | Some a, Some b => Ok (snd iv, a, b)
                        | _, _ => Err EIndexError end)
             (combine (List.seq 0 (len values)) values)
    end.
  (** plotting_functions.py:62-71 *)
  Definition cmap_speeds (minSpeed maxSpeed : N) : list N :=
    [minSpeed; #q(90,100); #q(95,100); #q(98,100); #1 - #q(1,1000); #1; #1 + #q(1,1000); maxSpeed].
  (** python's min of an array (plotting_functions.py:72) *)
  Definition pymin (l : list N) : N :=
    match l with [] => nnan N | a :: l => fold_left (fun m x => if x <? m then x else m) l a end.
  (** python's max of an array (plotting_functions.py:72) *)
  Definition pymax (l : list N) : N :=
    match l with [] => nnan N | a :: l => fold_left (fun m x => if x >? m then x else m) l a end.
  (** plotting_functions.py:72: the normalised positions handed to make_colormap *)
  Definition cmap_values (minSpeed maxSpeed : N) : list N :=
    let v := cmap_speeds minSpeed maxSpeed in
    map (fun x => (x - pymin v) / (pymax v - pymin v)) v.
End Helpers.
Arguments adplane : clear implicits.
Arguments vcmodel : clear implicits.
