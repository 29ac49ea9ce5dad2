(** * Model of wiz/examples/CurledWake_2D.py: the curled-wake models ve_u and vcl_u *)
From Coq Require Import ZArith List Bool.
From Verif Require Import Num M_Misc.
Import ListNotations.
Local Open Scope num_scope.

Section Curled.
  Context {N : Num}.
  (** One entry of the arrays theta, gamma_x and sigma (None when the argument sigma is None, for all entries).
      Simplification: the three arrays are zipped, so they have the same length, as the docstrings require
      (CurledWake_2D.py:34-35,73-74); numpy raises on a mismatch.  A scalar sigma is an array of equal entries. *)
  Record node := { nth_ : N; ngam : N; nsig : option N }.

  (** CurledWake_2D.py:46-50 and 87-91: the smoothing factor K at one node; d2 is (z-z1)**2 + (y-y1)**2 *)
  Definition smooth (s : option N) (d2 : N) : N :=
    match s with
    | None => #1
    | Some s => #1 - nexp N (- d2 / sq s)
    end.

  (** CurledWake_2D.py:40-44,56-60: integrands of u_y and u_z at one node, one control point (ycp,zcp) *)
  Definition ve_integrand (R theta_y : N) (nd : node) (ycp zcp : N) : N * N :=
    let ye := R * ncos N (nth_ nd) * ncos N theta_y in
    let ze := R * nsin N (nth_ nd) in
    let gamm := R * ngam nd / (#2 * npi N) in
    let denom := sq (ycp - ye) + sq (zcp - ze) in
    let Ks := smooth (nsig nd) (sq (zcp - ze) + sq (ycp - ye)) in
    let DenInv := gamm / denom * Ks in
    (- (zcp - ze) * DenInv, (ycp - ye) * DenInv).
  (** CurledWake_2D.py:54-60, one control point *)
  Definition ve_u_pt (R theta_y : N) (nodes : list node) (p : N * N) : N * N :=
    let I := map (fun nd => ve_integrand R theta_y nd (fst p) (snd p)) nodes in
    let theta := map nth_ nodes in
    (trapz (map fst I) theta, trapz (map snd I) theta).
  (** CurledWake_2D.py:27-64: all the control points (np.ravel / reshape left out) *)
  Definition ve_u (R theta_y : N) (nodes : list node) (cps : list (N * N)) : list (N * N) :=
    map (ve_u_pt R theta_y nodes) cps.

  (** CurledWake_2D.py:80-84,95-101 *)
  Definition vcl_integrand (R theta_y : N) (nd : node) (x y z : N) : N * N :=
    let x1 := - R * ncos N (nth_ nd) * nsin N theta_y in
    let y1 := R * ncos N (nth_ nd) * ncos N theta_y in
    let z1 := R * nsin N (nth_ nd) in
    let gamm := R * ngam nd / (#4 * npi N) in
    let Den1 := nsqrt N (sq (x - x1) + sq (y - y1) + sq (z - z1)) in
    let Den2 := x - x1 in
    let Ks := smooth (nsig nd) (sq (z - z1) + sq (y - y1)) in
    let DenInv := gamm / (Den1 * (Den1 - Den2)) * Ks in
    ((z1 - z) * DenInv, (y - y1) * DenInv).
  (** CurledWake_2D.py:95-101, one control point *)
  Definition vcl_u_pt (R theta_y : N) (nodes : list node) (p : N * N * N) : N * N :=
    let '(x, y, z) := p in
    let I := map (fun nd => vcl_integrand R theta_y nd x y z) nodes in
    let theta := map nth_ nodes in
    (trapz (map fst I) theta, trapz (map snd I) theta).
  (** CurledWake_2D.py:66-106 *)
  Definition vcl_u (R theta_y : N) (nodes : list node) (cps : list (N * N * N)) : list (N * N) :=
    map (vcl_u_pt R theta_y nodes) cps.

  (** ** The three computations compared by main (CurledWake_2D.py:167-203), one control point *)
  (** CurledWake_2D.py:174-175,184-185,202-203: uy += ..., uz += ... *)
  Definition acc2 (a b : N * N) : N * N := (fst a + fst b, snd a + snd b).
  (** CurledWake_2D.py:172,182,199: gamma_l = gamma_t*sin(yaw)*sin(theta).
      theta and the SmoothParam array (lines 136-146) are given as the list of (theta, SmoothParam) *)
  Definition shed (yaw gamma_t : N) (ts : N * option N) : node :=
    {| nth_ := fst ts; ngam := gamma_t * nsin N yaw * nsin N (fst ts); nsig := snd ts |}.
  (** CurledWake_2D.py:167-175; surfaces: zip(WT.gamma_t,WT.r) *)
  Definition main_vcl (yaw : N) (thetas : list (N * option N)) (surfaces : list (N * N)) (p : N * N * N) : N * N :=
    fold_left (fun u s => acc2 u (vcl_u_pt (snd s) yaw (map (shed yaw (fst s)) thetas) p)) surfaces (#0, #0).
  (** CurledWake_2D.py:177-185 *)
  Definition main_an (yaw : N) (thetas : list (N * option N)) (surfaces : list (N * N)) (p : N * N) : N * N :=
    fold_left (fun u s => acc2 u (ve_u_pt (snd s) yaw (map (shed yaw (fst s)) thetas) p)) surfaces (#0, #0).
  (** CurledWake_2D.py:198-200: the vortex points of one surface; the last theta (the first one again) is left out.
      Gammas and SmoothParam have one entry more than XV, which vps_u never reads *)
  Definition main_vortices (yaw dTheta : N) (thetas : list (N * option N)) (s : N * N) : list (vortex N) :=
    map (fun ts => {| vpos := [snd s * ncos N (fst ts) * ncos N yaw; snd s * nsin N (fst ts)];
                      vG := fst s * nsin N yaw * nsin N (fst ts) * (snd s * dTheta);
                      vs := match snd ts with Some e => e | None => #0 (* not read *) end |}) (removelast thetas).
  (** CurledWake_2D.py:187-203; dTheta = 2*pi/(nTheta-1) *)
  Definition main_vp (yaw : N) (thetas : list (N * option N)) (bSmooth : bool) (surfaces : list (N * N)) (p : N * N)
    : result (N * N) :=
    let dTheta := #2 * npi N / nZ N (Z.of_nat (List.length thetas) - 1) in
    fold_left (fun acc s =>
      let* u := acc in
      let* ui := vps_u (if bSmooth then 2 else 0)%Z 2%Z 2 2 [[fst p; snd p]] (main_vortices yaw dTheta thetas s) in
      match ui with
      | [[a; b]] => Ok (acc2 u (a, b))
      | _ => Err EIndexError
      end) surfaces (Ok (#0, #0)).
End Curled.
Arguments node : clear implicits.
