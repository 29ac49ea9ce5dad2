(** * Model of wiz/VortexCylinder.py *)
From Coq Require Import ZArith List Bool.
From Verif Require Import Num M_Elliptic M_Line M_Doublet.
Import ListNotations.
Local Open Scope num_scope.

Section Cylinder.
  Context {N : Num}.
  Notation pt := (N * N * N)%type.

  (** The routines below call [ellipticPiCarlson] on arrays; they are written
      over the routine [PIb] so that the same code can also be studied with an
      exact third-kind integral.  The code is the instance
      [PIb := ellipticPiCarlson] (definitions without suffix [_gen]). *)
  Section Gen.
  Variable PIb : list (N * N) -> list N.

  (** VortexCylinder.py:85  EPSILON_AXIS=1e-7 *)
  Definition EPS_AXIS : N := #q(1, 10000000).

  (** VortexCylinder.py:97 *)
  Definition vc_r (p : pt) : N := let '(x, y, z) := p in nsqrt N (sq x + sq y).
  (** VortexCylinder.py:102 *)
  Definition vc_isaxis (R r : N) : bool := r <? (EPS_AXIS * R).
  (** VortexCylinder.py:104 *)
  Definition vc_axis_uz (gamma R z : N) : N :=
    gamma / #2 * (#1 + z / nsqrt N (sq z + sq R)).
  (** VortexCylinder.py:106 *)
  Definition vc_isrim (R r z : N) : bool :=
    (nabs N (r - R) / R <? #q(1,100000000)) && (nabs N (z / R) <? #q(1,100000000)).
  (** VortexCylinder.py:110-111 *)
  Definition vc_normal (R : N) (rz : N * N) : bool :=
    negb (vc_isaxis R (fst rz) || vc_isrim R (fst rz) (snd rz)).
  (** VortexCylinder.py:120-121 *)
  Definition vc_eps2 (eps z : N) : N := if z <? #0 then #0 else sq eps.
  (** VortexCylinder.py:116-122 *)
  Definition vc_k2 (eps R r z : N) : N :=
    if eps =? #0 then #4 * r * R / (sq (R + r) + sq z)
    else #4 * r * R / (sq (R + r) + sq z + vc_eps2 eps z).
  (** VortexCylinder.py:116-123 *)
  Definition vc_k02 (eps R r z : N) : N :=
    if eps =? #0 then #4 * r * R / sq (R + r)
    else #4 * r * R / (sq (R + r) + vc_eps2 eps z).
  (** VortexCylinder.py:128  k_2[k_2>1]=1 *)
  Definition clamp1 (k2 : N) : N := if k2 >? #1 then #1 else k2.
  (** VortexCylinder.py:129: arguments of ellipticPiCarlson *)
  Definition vc_nm (eps R : N) (rz : N * N) : N * N :=
    (vc_k02 eps R (fst rz) (snd rz), clamp1 (vc_k2 eps R (fst rz) (snd rz))).
  (** VortexCylinder.py:131-132: special values of PI *)
  Definition vc_fixPI (R r PI : N) : N :=
    if r =? R then #0 else if PI =? ninf N then #0 else PI.
  (** VortexCylinder.py:133 *)
  Definition vc_fixK (K : N) : N := if K =? ninf N then #0 else K.
  (** VortexCylinder.py:137-144 *)
  Definition vc_T1 (eps R r z : N) : N :=
    if negb (eps =? #0) && (z >=? #0) then
      #q(1,2) * (#1 + (R - r) * nsqrt N (#1 + sq eps / sq (R + r))
                        / nsqrt N (sq (R - r) + sq eps))
    else if r <? R then #1 else if r =? R then #q(1,2) else #0.
  (** VortexCylinder.py:115-145: (u_r,u_z) at a regular point given the value PI
      returned by the third-kind integral; k, EE and KK are computed before the clamp *)
  Definition vc_reg (gamma eps R : N) (rz : N * N) (PI : N) : N * N :=
    let '(r, z) := rz in
    let k2 := vc_k2 eps R r z in
    let k := nsqrt N k2 in
    let EE := nellipe N k2 in
    let KK := vc_fixK (nellipk N k2) in
    let k2c := clamp1 k2 in
    let PI := vc_fixPI R r PI in
    let ur := - gamma / (#2 * npi N) * nsqrt N (R / r) * ((#2 - k2c) / k * KK - #2 / k * EE) in
    let uz := gamma / #2 * (vc_T1 eps R r z
                 + z * k / (#2 * npi N * nsqrt N (r * R)) * (KK + (R - r) / (R + r) * PI)) in
    (ur, uz).
  (** VortexCylinder.py:101-108 (axis / rim values; the rim assignment comes last) *)
  Definition vc_special (gamma R : N) (rz : N * N) : N * N :=
    let '(r, z) := rz in
    if vc_isrim R r z then (#0, gamma / #4) else (#0, vc_axis_uz gamma R z).
  (** VortexCylinder.py:66-148, polar_out=True, whole array (flattened) *)
  Definition vc_tang_polar_gen (gamma R eps : N) (pts : list pt) : list (N * N) :=
    let rz := map (fun p => (vc_r p, snd p)) pts in
    let mask := map (vc_normal R) rz in
    let sel := gather mask rz in
    let PIs := PIb (map (vc_nm eps R) sel) in
    scatter mask (map2 (vc_reg gamma eps R) sel PIs) (map (vc_special gamma R) rz).
  (** VortexCylinder.py:150-153 (and 55-57, 338-340): psi = arctan2(Ycp,Xcp); ux=ur*cos(psi); uy=ur*sin(psi) *)
  Definition cart_of_polar2 (p : pt) (u : N * N) : pt :=
    let '(x, y, z) := p in
    let psi := natan2 N y x in
    (fst u * ncos N psi, fst u * nsin N psi, snd u).
  (** VortexCylinder.py:66-153, polar_out=False *)
  Definition vc_tang_u_gen (gamma R eps : N) (pts : list pt) : list pt :=
    map2 cart_of_polar2 pts (vc_tang_polar_gen gamma R eps pts).

  (** VortexCylinder.py:37-41: points beyond r_bar_Cut*R *)
  Definition vc_ff_cut (cut R : N) (p : pt) : bool :=
    let '(x, y, z) := p in
    let Rcp := nsqrt N (sq x + sq y) in
    nsqrt N (sq Rcp + sq z) >? cut * R.
  (** VortexCylinder.py:24-53, polar_out=True *)
  Definition vc_tang_doublet_polar_gen (gamma R cut : N) (pts : list pt) : result (list (N * N)) :=
    let bCut := map (vc_ff_cut cut R) pts in
    let near := vc_tang_polar_gen gamma R (#0) (gather (map negb bCut) pts) in
    let* far := doublet_line_polar_u
                  (gather bCut (map (fun p => (vc_r p, snd p)) pts))
                  (gamma * sq R * npi N) false in
    let nan2 := map (fun _ => (nnan N, nnan N)) pts in
    Ok (scatter bCut far (scatter (map negb bCut) near nan2)).
  (** VortexCylinder.py:24-61, polar_out=False *)
  Definition vc_tang_u_doublet_gen (gamma R cut : N) (pts : list pt) : result (list pt) :=
    let* u := vc_tang_doublet_polar_gen gamma R cut pts in
    Ok (map2 cart_of_polar2 pts u).

  (** VortexCylinder.py:169-172: arguments of ellipticPiCarlson *)
  Definition vc_longi_nm (R : N) (rz : N * N) : N * N :=
    let '(r, z) := rz in
    (#4 * r * R / sq (r + R), #4 * r * R / (sq (r + R) + sq z)).
  (** VortexCylinder.py:169-175 at one point (r,z), given the PI value: u_psi *)
  Definition vc_longi_upsi (gamma_l R : N) (rz : N * N) (PI : N) : N :=
    let '(r, z) := rz in
    let m := #4 * r * R / (sq (r + R) + sq z) in
    let K := nellipk N m in
    let Ar := (r - R + nabs N (R - r)) / (#2 * nabs N (R - r)) in
    let Az := z * nsqrt N m / (#2 * npi N * nsqrt N (r * R)) * (K - (R - r) / (R + r) * PI) in
    gamma_l / #2 * R / r * (Ar + Az).
  (** VortexCylinder.py:155-183; control points (r,psi,z) *)
  Definition vc_longi_u_polar_gen (gamma_l R : N) (polar_out : bool) (pts : list pt) : list pt :=
    let rz := map (fun p => (fst (fst p), snd p)) pts in
    let PIs := PIb (map (vc_longi_nm R) rz) in
    let ups := map2 (vc_longi_upsi gamma_l R) rz PIs in
    map2 (fun p u => let '(r, psi, z) := p in
            if polar_out then (#0, u, #0)
            else (- u * nsin N psi, u * ncos N psi, #0)) pts ups.
  (** VortexCylinder.py:194 *)
  Definition to_polar (p : pt) : pt :=
    let '(x, y, z) := p in (nsqrt N (sq x + sq y), natan2 N y x, z).
  (** VortexCylinder.py:185-196 *)
  Definition vc_longi_u_gen (gamma_l R : N) (polar_out : bool) (pts : list pt) : list pt :=
    vc_longi_u_polar_gen gamma_l R polar_out (map to_polar pts).

  (** VortexCylinder.py:205-217, one point, given the PI value (no special handling) *)
  Definition vc_raw_pt (gamma R : N) (rz : N * N) (PI : N) : N * N :=
    let '(r, z) := rz in
    let k2 := #4 * r * R / (sq (R + r) + sq z) in
    let k := nsqrt N k2 in
    let EE := nellipe N k2 in
    let KK := nellipk N k2 in
    let ur := - gamma / (#2 * npi N) * (nsqrt N (R / r) * ((#2 - k2) / k * KK - #2 / k * EE)) in
    let T1 := (R - r + nabs N (R - r)) / (#2 * nabs N (R - r)) in
    let uz := gamma / #2 * (T1 + z * k / (#2 * npi N * nsqrt N (r * R))
                                   * (KK + (R - r) / (R + r) * PI)) in
    (ur, uz).
  (** VortexCylinder.py:209-214: arguments of ellipticPiCarlson *)
  Definition vc_raw_nm (R : N) (rz : N * N) : N * N :=
    let '(r, z) := rz in
    (#4 * r * R / sq (R + r), #4 * r * R / (sq (R + r) + sq z)).
  (** VortexCylinder.py:201-219 *)
  Definition cylinder_tang_semi_inf_u_raw_gen (gamma R : N) (pts : list pt) : list (N * N) :=
    let rz := map (fun p => (vc_r p, snd p)) pts in
    map2 (vc_raw_pt gamma R) rz (PIb (map (vc_raw_nm R) rz)).

  (** VortexCylinder.py:311-334, one point, given the two PI values (epsilon is accepted but never read) *)
  Definition cyl_fin_pt (gamma R z1 z2 : N) (rz : N * N) (PI1 PI2 : N) : N * N :=
    let '(r, z) := rz in
    let zz1 := z - z1 in
    let zz2 := z - z2 in
    let k1_2 := #4 * r * R / (sq (R + r) + sq zz1) in
    let k2_2 := #4 * r * R / (sq (R + r) + sq zz2) in
    let k1 := nsqrt N k1_2 in
    let k2 := nsqrt N k2_2 in
    let EE1 := nellipe N k1_2 in let KK1 := nellipk N k1_2 in
    let EE2 := nellipe N k2_2 in let KK2 := nellipk N k2_2 in
    let ur := gamma / (#2 * npi N) * nsqrt N (R / r) *
                (((#2 - k2_2) / k2 * KK2 - #2 / k2 * EE2) - ((#2 - k1_2) / k1 * KK1 - #2 / k1 * EE1)) in
    let uz := - gamma / (#4 * npi N * nsqrt N (r * R)) *
                (zz2 * k2 * (KK2 + (R - r) / (R + r) * PI2)
                 - zz1 * k1 * (KK1 + (R - r) / (R + r) * PI1)) in
    (ur, uz).
  (** VortexCylinder.py:319-330: arguments of ellipticPiCarlson for the end z1 *)
  Definition cyl_fin_nm (R z1 : N) (rz : N * N) : N * N :=
    let '(r, z) := rz in
    (#4 * r * R / sq (R + r), #4 * r * R / (sq (R + r) + sq (z - z1))).
  (** VortexCylinder.py:290-336, polar_out=True *)
  Definition cylinder_tang_polar_gen (gamma R z1 z2 : N) (pts : list pt) : list (N * N) :=
    let rz := map (fun p => (vc_r p, snd p)) pts in
    let PI1 := PIb (map (cyl_fin_nm R z1) rz) in
    let PI2 := PIb (map (cyl_fin_nm R z2) rz) in
    map2 (fun q f => f q) (map2 (fun a b => (a, b)) PI1 PI2)
         (map (fun p q => cyl_fin_pt gamma R z1 z2 p (fst q) (snd q)) rz).
  (** VortexCylinder.py:290-341, polar_out=False *)
  Definition cylinder_tang_u_gen (gamma R z1 z2 : N) (pts : list pt) : list pt :=
    map2 cart_of_polar2 pts (cylinder_tang_polar_gen gamma R z1 z2 pts).

  (** ** Superpositions *)
  (** VortexCylinder.py:260-262: sum of two velocities *)
  Definition vadd (a b : pt) : pt :=
    let '(a1, a2, a3) := a in let '(b1, b2, b3) := b in (a1 + b1, a2 + b2, a3 + b3).
  (** VortexCylinder.py:260-262: ux = ux + ux1 ... on whole arrays *)
  Definition fadd (a b : list pt) : list pt := map2 vadd a b.
  (** VortexCylinder.py:240-242 *)
  Definition fzero (pts : list pt) : list pt := map (fun _ => (#0, #0, #0)) pts.
  (** VortexCylinder.py:246 *)
  Definition shift (c : pt) (p : pt) : pt :=
    let '(xc, yc, zc) := c in let '(x, y, z) := p in (x - xc, y - yc, z - zc).
  (** VortexCylinder.py:248: Ycp0+2*Ycyl[i] (also WindTurbine.py:291-297) *)
  Definition mirror_pt (yc : N) (p : pt) : pt := let '(x, y, z) := p in (x, y + #2 * yc, z).
  (** VortexCylinder.py:246-251 *)
  Definition ylist (ground : bool) (c : pt) (pts : list pt) : list (list pt) :=
    let p0 := map (shift c) pts in
    if ground then [p0; map (mirror_pt (snd (fst c))) p0] else [p0].

  (** VortexCylinder.py:221-264.  [cyls]: one entry per main cylinder: its centre
      and the list of (gamma_t,R) of its concentric cylinders (a row of the two arrays) *)
  Definition vcs_tang_u_gen (eps : N) (ground : bool) (cyls : list (pt * list (N * N)))
             (pts : list pt) : list pt :=
    fold_left (fun u cyl =>
      fold_left (fun u Y =>
        fold_left (fun u gr =>
          if nabs N (fst gr) >? #0 then fadd u (vc_tang_u_gen (fst gr) (snd gr) eps Y) else u)
          (snd cyl) u)
        (ylist ground (fst cyl) pts) u)
      cyls (fzero pts).
  (** VortexCylinder.py:266-288 (the Ground argument is ignored) *)
  Definition vcs_longi_u_gen (ground : bool) (cyls : list (pt * list (N * N)))
             (pts : list pt) : list pt :=
    fold_left (fun u cyl =>
      fold_left (fun u gr =>
        if nabs N (fst gr) >? #0
        then fadd u (vc_longi_u_gen (fst gr) (snd gr) false (map (shift (fst cyl)) pts)) else u)
        (snd cyl) u)
      cyls (fzero pts).
  End Gen.

  (** ** The code: [PIb := ellipticPiCarlson] *)
  (** VortexCylinder.py:66-148 with the code's third-kind routine (line 129) *)
  Definition vc_tang_polar := vc_tang_polar_gen ellipticPiCarlson.
  (** VortexCylinder.py:66-153 *)
  Definition vc_tang_u := vc_tang_u_gen ellipticPiCarlson.
  (** VortexCylinder.py:24-53 *)
  Definition vc_tang_doublet_polar := vc_tang_doublet_polar_gen ellipticPiCarlson.
  (** VortexCylinder.py:24-61 *)
  Definition vc_tang_u_doublet := vc_tang_u_doublet_gen ellipticPiCarlson.
  (** VortexCylinder.py:155-183 *)
  Definition vc_longi_u_polar := vc_longi_u_polar_gen ellipticPiCarlson.
  (** VortexCylinder.py:185-196 *)
  Definition vc_longi_u := vc_longi_u_gen ellipticPiCarlson.
  (** VortexCylinder.py:201-219 *)
  Definition cylinder_tang_semi_inf_u_raw := cylinder_tang_semi_inf_u_raw_gen ellipticPiCarlson.
  (** VortexCylinder.py:290-336 *)
  Definition cylinder_tang_polar := cylinder_tang_polar_gen ellipticPiCarlson.
  (** VortexCylinder.py:290-341 *)
  Definition cylinder_tang_u := cylinder_tang_u_gen ellipticPiCarlson.
  (** VortexCylinder.py:221-264 *)
  Definition vcs_tang_u := vcs_tang_u_gen ellipticPiCarlson.
  (** VortexCylinder.py:266-288 *)
  Definition vcs_longi_u := vcs_longi_u_gen ellipticPiCarlson.
  (** VortexCylinder.py:198-199 *)
  Definition vc_root_u (Gamma_r : N) (polar_out : bool) (pts : list pt) : list pt :=
    map (vl_semiinf_straight_u Gamma_r polar_out) pts.
End Cylinder.
