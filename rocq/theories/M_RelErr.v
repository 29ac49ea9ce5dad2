(** * Model of getModelsRelErr (wiz/article_blockage/helper_functions.py:761-818) *)
From Coq Require Import ZArith List Bool String.
From Verif Require Import Num M_Solver M_Turbine M_Farm M_Helpers.
Import ListNotations.
Local Open Scope num_scope.
Local Notation len := List.length.

Section RelErr.
  Context {N : Num}.
  Notation pt := (N * N * N)%type.

  (** helper_functions.py:334-342, 351-358, 468-552 (OutputAD as loadPlane returns it): the case, the gridded axial velocity and
      the interpolant setupInterpolants makes of it.  Simplification: the spline itself (scipy) is a function of the
      pair (x or y, z) *)
  Record addata := { ad_CT : N; ad_HH : N; ad_Lambda : N; ad_Yaw : N; ad_plane : adplane N; ad_spline : N -> N -> N }.

  (** helper_functions.py:783-798: the points of one direction: with UseRho the distance is measured along the
      direction theta from the z axis, otherwise along z on a line offset by roff *)
  Definition re_points (Horizontal UseRho : bool) (rho : list N) (theta roff : N) : list pt :=
    map (fun r =>
      if Horizontal then
        let '(z, x) := if UseRho then (r * ncos N theta, - r * nsin N theta) else (r, r * #0 + roff) in
        (x, x * #0, z)
      else
        let '(z, y) := if UseRho then (r * ncos N theta, - r * nsin N theta) else (r, r * #0 + roff) in
        (y * #0, y, z)) rho.

  (** helper_functions.py:184-192 (OutputProj.fW), 351-358 (OutputAD.fW): the axial component, from the in-plane
      coordinates *)
  Definition spline_W (Horizontal : bool) (f : N -> N -> N) (pts : list pt) : list N :=
    map (fun p => let '(x, y, z) := p in if Horizontal then f x z else f y z) pts.

  (** helper_functions.py:800-813: the axial velocity of one model.  [mid] is Some u when MatchMidVel; setupModel is
      called without U0, so that the free stream is 1 *)
  Definition re_model (minim : (N -> N) -> N -> N -> N) (AD : addata) (GP : N -> N -> N) (mid : option N) (Horizontal : bool)
             (name : string) (pts : list pt) (ADW : list N) : result (list N) :=
    if String.eqb name "VC" || String.eqb name "VD" || String.eqb name "SS" then
      let* VC := setupModel minim (ad_CT AD) (ad_HH AD) (ad_Lambda AD) (ad_Yaw AD) mid (#1) None name in
      let* u := snd (vc_fU VC pts) in
      Ok (map (fun w => let '(_, _, wz) := w in wz) u)
    else if String.eqb name "AD" then Ok ADW
    else if String.eqb name "GP" then Ok (spline_W Horizontal GP pts)
    else Err (EException "Model not supported").

  (** helper_functions.py:814: one row, in percent *)
  Definition re_row (VCW ADW : list N) : list N := map2 (fun v a => (v - a) / a * #100) VCW ADW.

  (** helper_functions.py:800-814: the loop over the models at one direction; ModelsRE[iModel][itheta,:] is assigned *)
  Fixpoint re_models (ans : string -> result (list N)) (ADW : list N) (itheta iModel : nat) (Models : list string)
           (RE : list (list (list N))) : result (list (list (list N))) :=
    match Models with
    | [] => Ok RE
    | m :: Models =>
        let* VCW := ans m in
        re_models ans ADW itheta (S iModel) Models (upd RE iModel (upd (nth iModel RE []) itheta (re_row VCW ADW)))
    end.

  (** helper_functions.py:782-814: the loop over the directions, zip(angles,Roffsets) *)
  Fixpoint re_dirs minim (AD : addata) GP mid (Horizontal UseRho : bool) (rho : list N) (Models : list string) (itheta : nat)
           (dirs : list (N * N)) (RE : list (list (list N))) : result (list (list (list N))) :=
    match dirs with
    | [] => Ok RE
    | (theta, roff) :: dirs =>
        let pts := re_points Horizontal UseRho rho theta roff in
        let ADW := spline_W Horizontal (ad_spline AD) pts in
        let* RE := re_models (fun m => re_model minim AD GP mid Horizontal m pts ADW) ADW itheta 0 Models RE in
        re_dirs minim AD GP mid Horizontal UseRho rho Models (S itheta) dirs RE
    end.

  (** helper_functions.py:817: np.mean(M,axis=0).ravel() of a matrix with n columns *)
  Definition mean_rows (n : nat) (M : list (list N)) : list N :=
    map (fun j => np_mean (map (fun row => nth j row (nnan N)) M)) (seq 0 n).

  (** helper_functions.py:761-819.  [AD] is what loadPlane returned (None when the case does not exist), [GP] the
      interpolant of the OutputProj data.  U0 and R only reach the locals gamma_t and dmz_dz (774-777), which are
      not used *)
  Definition getModelsRelErr (minim : (N -> N) -> N -> N -> N) (AD : option addata) (GP : N -> N -> N) (angles Roffsets rho : list N)
             (UseRho : bool) (Models : list string) (MatchMidVel : bool) (U0 R : N) (Horizontal : bool)
    : result (list (list (list N)) * list (list N)) :=
    let RE := map (fun _ => repeat (repeat (#0) (len rho)) (len angles)) Models in
    match AD with
    | None => Err EAttributeError
    | Some AD =>
        let* mid := if MatchMidVel then let* u := fCenter (ad_plane AD) in Ok (Some u) else Ok None in
        let* RE := re_dirs minim AD GP mid Horizontal UseRho rho Models 0 (combine angles Roffsets) RE in
        Ok (RE, map (mean_rows (len rho)) RE)
    end.
End RelErr.
Arguments addata : clear implicits.
