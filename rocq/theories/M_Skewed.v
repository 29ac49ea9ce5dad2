(** * Model of wiz/VortexCylinderSkewed.py *)
From Coq Require Import ZArith List Bool String.
From Verif Require Import Num M_Elliptic M_Line M_Cylinder.
Import ListNotations.
Local Open Scope num_scope.

Section Skewed.
  Context {N : Num}.
  Notation pt := (N * N * N)%type.

  (** VortexCylinderSkewed.py:24-29 *)
  Definition skew_components (u_x u_z m : N) : N * N :=
    let coschi := #1 / nsqrt N (#1 + sq m) in
    let sinchi := m / nsqrt N (#1 + sq m) in
    (u_z * coschi + u_x * sinchi, - u_z * sinchi + u_x * coschi).
  (** VortexCylinderSkewed.py:30-33 *)
  Definition polar_components (u_x u_y psi : N) : N * N :=
    (u_x * ncos N psi + u_y * nsin N psi, - u_x * nsin N psi + u_y * ncos N psi).

  (** VortexCylinderSkewed.py:51 *)
  Definition svc_vtheta (ntheta : nat) : list N :=
    map (fun t => npi N / #2 + t) (linspace (#0) (#2 * npi N) ntheta).
  (** VortexCylinderSkewed.py:67,108: integrand pieces at one theta *)
  Definition svc_a (R r psi z th : N) : N :=
    sq R + sq r + sq z - #2 * R * r * ncos N (th - psi).
  (** VortexCylinderSkewed.py:68,109 *)
  Definition svc_b (R m r psi z th : N) : N :=
    #2 * m * R * ncos N th - #2 * m * r * ncos N psi - #2 * z.
  (** VortexCylinderSkewed.py:58 *)
  Definition svc_c (m : N) : N := #1 + sq m.
  (** VortexCylinderSkewed.py:72,112 *)
  Definition svc_D (gamma R m r psi z th : N) : N :=
    let a := svc_a R r psi z th in
    #2 * gamma / (#4 * npi N) /
      (nsqrt N a * (#2 * nsqrt N (a * svc_c m) + svc_b R m r psi z th)).
  (** VortexCylinderSkewed.py:74-76,114-116: generic integrand (a_i*sqrt(c)+b_i*sqrt(a))*D *)
  Definition svc_int (gamma R m r psi z : N) (ai bi : N -> N) (th : N) : N :=
    (ai th * nsqrt N (svc_c m) + bi th * nsqrt N (svc_a R r psi z th))
      * svc_D gamma R m r psi z th.
  (** VortexCylinderSkewed.py:74-76,114-116: np.trapz(...,vtheta) *)
  Definition svc_trap (ntheta : nat) (f : N -> N) : N :=
    let vt := svc_vtheta ntheta in trapz (map f vt) vt.

  (** VortexCylinderSkewed.py:38-122, one control point (r,psi,z) *)
  Definition svc_tang_u_polar (gamma R m : N) (ntheta : nat) (polar_out : bool) (p : pt) : pt :=
    let '(r, psi, z) := p in
    let I ai bi := svc_trap ntheta (svc_int gamma R m r psi z ai bi) in
    let az := fun th => R * (R - r * ncos N (th - psi)) in
    let bz := fun th => R * m * ncos N th in
    if polar_out then
      (I (fun th => R * z * ncos N (th - psi)) (fun th => - R * ncos N (th - psi)),
       I (fun th => R * z * nsin N (th - psi)) (fun th => - R * nsin N (th - psi)),
       I az bz)
    else
      (I (fun th => R * z * ncos N th) (fun th => - R * ncos N th),
       I (fun th => R * z * nsin N th) (fun th => - R * nsin N th),
       I az bz).

  (** VortexCylinderSkewed.py:138 *)
  Definition svl_vtheta (ntheta : nat) : list N :=
    map (fun t => t + npi N / nZ N (Z.of_nat ntheta)) (linspace (#0) (#2 * npi N) ntheta).
  (** VortexCylinderSkewed.py:149-151,164-166 *)
  Definition svl_den (gamma_l m r psi z th : N) : N :=
    let Den1 := nsqrt N (#1 + sq r + sq z - #2 * r * ncos N (th - psi)) in
    let Den2 := - z + m * ncos N th
                + nsqrt N (#1 + sq m) * nsqrt N (#1 + sq r + sq z - #2 * r * ncos N (th - psi))
                - m * r * ncos N psi in
    gamma_l / (#4 * npi N) / (Den1 * Den2).
  (** VortexCylinderSkewed.py:125-174, one control point; note line 156:
      with polar_out the computed u_r is discarded and u_psi returned twice *)
  Definition svc_longi_u_polar (gamma_l R m : N) (ntheta : nat) (polar_out : bool) (p : pt) : pt :=
    let '(r', psi, z') := p in
    let r := r' / R in
    let z := z' / R in
    let I f := let vt := svl_vtheta ntheta in
               trapz (map (fun th => f th * svl_den gamma_l m r psi z th) vt) vt in
    let uz := I (fun th => m * (- nsin N th + r * nsin N psi)) in
    if polar_out then
      let u_psi := I (fun th => r - m * z * ncos N psi - ncos N (th - psi)) in
      (u_psi, u_psi, uz)
    else
      (I (fun th => nsin N th - r * nsin N psi),
       I (fun th => - m * z - ncos N th + r * ncos N psi), uz).

  (** VortexCylinderSkewed.py:196-200, one point: (ux,uy,uz,upsi) *)
  Definition svr_m0 (Gamma_r : N) (p : pt) : N * N * N * N :=   (* ux,uy,uz,upsi *)
    let '(r, psi, z) := p in
    let u_psi := Gamma_r / (#4 * npi N * r) * (#1 + z / nsqrt N (sq r + sq z)) in
    (- nsin N psi * u_psi, ncos N psi * u_psi, #0, u_psi).
  (** VortexCylinderSkewed.py:203-209, one point *)
  Definition svr_general (Gamma_r m : N) (p : pt) : N * N * N * N :=
    let '(r, psi, z) := p in
    let chi := natan N m in
    let '(ux, uy, uz) :=
      match vl_semiinf_u (r * ncos N psi) (r * nsin N psi) z (nsin N chi) (#0) (ncos N chi)
                         Gamma_r 0 (#0) with
      | Ok o => vl_vec o
      | Err _ => (nnan N, nnan N, nnan N)     (* unreachable: visc_model=0 *)
      end in
    (ux, uy, uz, - ux * nsin N psi + uy * ncos N psi).
  (** VortexCylinderSkewed.py:211-222, one point *)
  Definition svr_plane (Gamma_r m : N) (p : pt) : N * N * N * N :=
    let '(r, psi, z) := p in
    let coschi := #1 / nsqrt N (#1 + sq m) in
    let sinchi := m / nsqrt N (#1 + sq m) in
    if r >? EPS_AXIS then
      let f := Gamma_r / (#4 * npi N * r) in
      let uz := f * (#1 / (#1 - ncos N psi * sinchi) * sinchi * nsin N psi) in
      let u_psi := f * (#1 / (#1 - ncos N psi * sinchi) * coschi) in
      (- nsin N psi * u_psi, ncos N psi * u_psi, uz, u_psi)
    else (- nsin N psi * #0, ncos N psi * #0, #0, #0).
  (** VortexCylinderSkewed.py:223-232, one point (with polar_out the shape of u_r is not restored by the code; shapes are not modelled) *)
  Definition svr_out (polar_out : bool) (p : pt) (u : N * N * N * N) : pt :=
    let '(r, psi, z) := p in let '(ux, uy, uz, upsi) := u in
    if polar_out then (ux * ncos N psi + uy * nsin N psi, upsi, uz) else (ux, uy, uz).
  (** VortexCylinderSkewed.py:176-232, whole array of (r,psi,z).
      The branch is selected by max|z| over the array; np.max of an empty array
      raises ValueError *)
  Definition svc_root_u_polar (Gamma_r m : N) (polar_out : bool) (pts : list pt) : result (list pt) :=
    if Gamma_r =? #0 then
      Ok (map (fun p => let '(r, psi, z) := p in (r * #0, r * #0, r * #0)) pts)
    else if m =? #0 then Ok (map (fun p => svr_out polar_out p (svr_m0 Gamma_r p)) pts)
    else match pts with
         | [] => Err EValueError
         | _ =>
             if amax (map (fun p => nabs N (snd p)) pts) >? #0
             then Ok (map (fun p => svr_out polar_out p (svr_general Gamma_r m p)) pts)
             else Ok (map (fun p => svr_out polar_out p (svr_plane Gamma_r m p)) pts)
         end.

  (** VortexCylinderSkewed.py:234-249: polar_out is accepted and ignored *)
  Definition svc_u_polar (gamma_t gamma_l Gamma_r R m : N) (ntheta : nat) (polar_out : bool)
             (pts : list pt) : result (list pt) :=
    let ul := map (svc_longi_u_polar gamma_l R m ntheta false) pts in
    let ut := map (svc_tang_u_polar gamma_t R m ntheta false) pts in
    let* ur := svc_root_u_polar Gamma_r m false pts in
    Ok (fadd (fadd ul ut) ur).

  (** VortexCylinderSkewed.py:254-266 *)
  Definition svc_longi_u (gamma_l R m : N) (ntheta : nat) (polar_out : bool) (p : pt) : pt :=
    svc_longi_u_polar gamma_l R m ntheta polar_out (to_polar p).
  (** VortexCylinderSkewed.py:268-280 *)
  Definition svc_tang_u (gamma_t R m : N) (ntheta : nat) (polar_out : bool) (p : pt) : pt :=
    svc_tang_u_polar gamma_t R m ntheta polar_out (to_polar p).
  (** VortexCylinderSkewed.py:282-293 *)
  Definition svc_root_u (Gamma_r m : N) (polar_out : bool) (pts : list pt) : result (list pt) :=
    svc_root_u_polar Gamma_r m polar_out (map to_polar pts).

  (** VortexCylinderSkewed.py:295-336; one entry of [cyls] per main cylinder:
      centre and the list of (gamma,R,m) *)
  Definition svcs_tang_u (ntheta : nat) (ground : bool) (cyls : list (pt * list (N * N * N)))
             (pts : list pt) : list pt :=
    fold_left (fun u cyl =>
      fold_left (fun u Y =>
        fold_left (fun u grm =>
          let '(g, R, m) := grm in
          if nabs N g >? #0 then fadd u (map (svc_tang_u g R m ntheta false) Y) else u)
          (snd cyl) u)
        (ylist ground (fst cyl) pts) u)
      cyls (fzero pts).
  (** VortexCylinderSkewed.py:338-367: line 362 passes Ycp0, not the mirrored Y *)
  Definition svcs_longi_u (ntheta : nat) (ground : bool) (cyls : list (pt * list (N * N * N)))
             (pts : list pt) : list pt :=
    fold_left (fun u cyl =>
      fold_left (fun u (Y : list pt) =>
        fold_left (fun u grm =>
          let '(g, R, m) := grm in
          if nabs N g >? #0
          then fadd u (map (svc_longi_u g R m ntheta false) (map (shift (fst cyl)) pts)) else u)
          (snd cyl) u)
        (ylist ground (fst cyl) pts) u)
      cyls (fzero pts).

  (** VortexCylinderSkewed.py:379-384, 389-394, 401-406: outputs[:nout] of the arrays
      (u_z,u_psi,u_x,u_y,u_zeta,u_xi,u_r); nout=1 returns the array u_z itself, here the one-element list *)
  Definition fV_arrays (m : N) (nout : nat) (pts us : list pt) : list (list N) :=
    let pol := map2 (fun p u => let '(r, psi, z) := p in let '(ux, uy, uz) := u in polar_components ux uy psi) pts us in
    let skw := map (fun u => let '(ux, uy, uz) := u in skew_components ux uz m) us in
    firstn nout [map snd us; map snd pol; map (fun u => fst (fst u)) us; map (fun u => snd (fst u)) us;
                 map fst skw; map snd skw; map fst pol].
  (** VortexCylinderSkewed.py:374-384 *)
  Definition fV_Trailed (m gamma_longi : N) (ntheta nout : nat) (pts : list pt) : list (list N) :=
    fV_arrays m nout pts (map (svc_longi_u_polar gamma_longi (#1) m ntheta false) pts).
  (** VortexCylinderSkewed.py:386-394 *)
  Definition fV_Tangential (m gamma_t : N) (ntheta nout : nat) (pts : list pt) : list (list N) :=
    fV_arrays m nout pts (map (svc_tang_u_polar gamma_t (#1) m ntheta false) pts).
  (** VortexCylinderSkewed.py:396-406 *)
  Definition fV_Root (m Gamma_r : N) (nout : nat) (pts : list pt) : result (list (list N)) :=
    let* us := svc_root_u_polar Gamma_r m false pts in Ok (fV_arrays m nout pts us).

  (** VortexCylinderSkewed.py:416,458: coefficients shared by fKxit and fKzt *)
  Definition fK_k2 (r : N) : N := sq (#1 - r) / sq (#1 + r).
  (** VortexCylinderSkewed.py:417,459 *)
  Definition fK_m1 (r m : N) : N := (nsqrt N (#1 + sq m) + nsqrt N (sq r + sq m)) / (#1 + r).
  (** VortexCylinderSkewed.py:418,460 *)
  Definition fK_m2 (r m : N) : N := (nsqrt N (#1 + sq m) - nsqrt N (sq r + sq m)) / (#1 + r).
  (** VortexCylinderSkewed.py:419,461 *)
  Definition fK_b1 (r m : N) : N := sq (fK_m1 r m) - #1.
  (** VortexCylinderSkewed.py:420,462 *)
  Definition fK_b2 (r m : N) : N := #1 - sq (fK_m2 r m).
  (** VortexCylinderSkewed.py:421,463 *)
  Definition fK_j2 (r : N) : N := #1 - fK_k2 r.
  (** VortexCylinderSkewed.py:464,467, given the two PI values *)
  Definition Kzt_pt (m r Pi1 Pi2 : N) : N :=
    #2 * nsqrt N (#1 + sq m) * r / (m * npi N) * nellipk N (sq r)
    - r * (r + #1) / (#2 * m * npi N * nsqrt N (sq m + sq r))
      * ((fK_b1 r m + fK_j2 r) * Pi1 + (fK_b2 r m - fK_j2 r) * Pi2).
  (** VortexCylinderSkewed.py:422,436-439, m<>0: [b1] has been overwritten by the
      boolean mask vr>EPSILON_AXIS, so b1[b1] is the array of True's, i.e. 1 *)
  Definition Kxit_pt (m r Pi1 Pi2 : N) : N :=
    if r >? EPS_AXIS then
      #2 * (#1 + sq m) * r / (sq m * npi N) * nellipk N (sq r)
      - r * (r + #1) * nsqrt N (sq m + #1) / (#2 * sq m * npi N * nsqrt N (sq m + sq r))
        * ((#1 + fK_j2 r) * Pi1 + (fK_b2 r m - fK_j2 r) * Pi2)
    else #0.
  (** VortexCylinderSkewed.py:427-434, m=0 *)
  Definition Kxit0_pt (r : N) : N :=
    let k2 := #4 * r / sq (r + #1) in
    let k := nsqrt N k2 in
    if r >? EPS_AXIS then
      #1 / npi N * nsqrt N (#1 / r) * ((#2 - k2) / k * nellipk N k2 - #2 / k * nellipe N k2)
    else #0.
  (** VortexCylinderSkewed.py:414,452: Oye's polynomial *)
  Definition fOye (r : N) : N := #q(1,2) * (r + #q(2,5) * cube r + #q(2,5) * pow5 r).
  (** VortexCylinderSkewed.py:441-446: the numerical integral of Kxit at one radius, chi=arctan(m), 1000 nodes *)
  Definition Kxit_num_pt (m r : N) : N :=
    let chi := natan N m in
    let vt := linspace (#0) (npi N / #2) 1000 in
    #2 * r / npi N
    * trapz (map (fun t => sq (nsin N (#2 * t))
                     / (nsqrt N (sq (#1 + r) - #4 * r * sq (ncos N t))
                        * (sq (r - ncos N (#2 * t)) * sq (ncos N chi) + sq (nsin N (#2 * t))))) vt) vt.
  (** VortexCylinderSkewed.py:469-471: Coleman's integral at one radius *)
  Definition Kzt_num_pt (m r : N) : N :=
    let vt := linspace (#0) (npi N) 1000 in
    - #1 / npi N * r * nsqrt N (#1 + sq m) / m
    * trapz (map (fun t => - #1 / nsqrt N (#1 + sq r - #2 * r * ncos N t)
                     + nsqrt N (#1 - #2 * r * ncos N t + sq r)
                       / (#1 + sq r - #2 * r * ncos N t + sq m * sq (nsin N t))) vt) vt.

  (** The routine for the elliptic integral of the third kind is a parameter of the next definitions;
      the code is the instance [ellipticPiCarlson] *)
  Section WithPI.
    Variable PIb : list (N * N) -> list N.
    (** VortexCylinderSkewed.py:423,465 *)
    Definition fK_Pi1 (m : N) (rs : list N) : list N := PIb (map (fun r => (- fK_b1 r m, fK_j2 r)) rs).
    (** VortexCylinderSkewed.py:424,466 *)
    Definition fK_Pi2 (m : N) (rs : list N) : list N := PIb (map (fun r => (fK_b2 r m, fK_j2 r)) rs).
    (** VortexCylinderSkewed.py:458-467: first output of fKzt *)
    Definition Kzt_gen (m : N) (rs : list N) : list N :=
      map2 (fun rp p2 => Kzt_pt m (fst rp) (snd rp) p2) (map2 pair rs (fK_Pi1 m rs)) (fK_Pi2 m rs).
    (** VortexCylinderSkewed.py:416-439: first output of fKxit *)
    Definition Kxit_gen (m : N) (rs : list N) : list N :=
      if m =? #0 then map Kxit0_pt rs
      else map2 (fun rp p2 => Kxit_pt m (fst rp) (snd rp) p2) (map2 pair rs (fK_Pi1 m rs)) (fK_Pi2 m rs).
    (** VortexCylinderSkewed.py:411-448 *)
    Definition fKxit_gen (rs : list N) (m : N) : result (list N * list N * list N) :=
      Ok (Kxit_gen m rs, map (Kxit_num_pt m) rs, map fOye rs).
    (** VortexCylinderSkewed.py:450-494.  nout=1 returns the array itself, here the one-element list.
        nout>3: the three extra integrals are computed for every radius, and the third of them
        (line 492) evaluates the name chi, which is not defined in fKzt; without radii nothing is evaluated *)
    Definition fKzt_gen (rs : list N) (m : N) (nout : nat) : result (list (list N)) :=
      if m =? #0 then Err (EException "Not intended for m==0")
      else if Nat.leb nout 3
      then Ok (firstn nout [Kzt_gen m rs; map (Kzt_num_pt m) rs; map fOye rs])
      else match rs with
      | [] => Ok (firstn nout [Kzt_gen m []; []; []; []; []; []])
      | _ => Err (ENameError "chi")
      end.
  End WithPI.
  (** VortexCylinderSkewed.py:411-448 *)
  Definition fKxit := fKxit_gen ellipticPiCarlson.
  (** VortexCylinderSkewed.py:450-494 *)
  Definition fKzt := fKzt_gen ellipticPiCarlson.
End Skewed.
