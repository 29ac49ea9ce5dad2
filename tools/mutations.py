# (file, old text, new text, claim broken, description, properties whose theorems should fail)
M=[
("M_Farm.v","Ok v => farm_loop h' f' o pts (fadd u v)","Ok v => farm_loop h' f' o pts v","the farm field is the sum over its turbines","velocity_field keeps only the last turbine (u = v for u += v)",["C01"]),
("M_Farm.v","{| o_only_ind := true;","{| o_only_ind := o_only_ind o;","the farm field adds inductions, free stream added once","farm does not force only_ind=True",["C01","C02"]),
("M_Farm.v","OpAppend i => if is_wt h i then","OpAppend i => if true then","append only accepts wind turbines","append without the isinstance check",["C03"]),
("M_Farm.v","layout_loop (upd h i (OWT (update_position t p))) f' rows'","layout_loop (upd h i (OWT (update_position t (t_rhub t)))) f' rows'","the layout setter moves the turbines","layout setter drops the update",["C04"]),
("M_Farm.v","nZ N (Z.of_nat j - Z.of_nat (nx / 2)%nat - 1) * xS","nZ N (Z.of_nat j - Z.of_nat (nx / 2)%nat) * xS","gridLayout positions","off by one in the x index of gridLayout",["C05"]),
("M_Farm.v","let z := nZ N (Z.of_nat i - 1) * zS in","let z := nZ N (Z.of_nat j - 1) * zS in","gridLayout positions are distinct and as documented","gridLayout uses the column index for z",["C05","C06"]),
("M_Turbine.v","match t_chi t with Some c => c | None => chi_fresh t end.","chi_fresh t.","compute_u caches/reuses the skew angle (set_chi is honoured)","chi is recomputed at every call, ignoring set_chi",["C09"]),
("M_Turbine.v","let cyl := transform_T M (t_rhub t) in","let cyl := t_rhub t in","translation and yaw equivariance","hub not transformed to cylinder coordinates",["C17","C18"]),
("M_Turbine.v","let ug := map (transform M) u in","let ug := map (transform_T M) u in","yaw equivariance","velocity transformed with the transpose",["C18"]),
("M_Turbine.v","Ok (if o_only_ind o then ug else map (fun v => vadd v (t_U0 t)) ug)","Ok (if o_only_ind o then map (fun v => vadd v (t_U0 t)) ug else ug)","only_ind differs by the free stream","only_ind test inverted",["C14"]),
("M_Turbine.v","if in_wake_tube (t_R t) p then (#0, #0, #0) else v) pt0 u","if in_wake_tube (t_R t) p then (#0, #0, #0) else v) ptc u","no_wake zeroes the tube and nothing else","wake mask computed on points not relative to the hub",["C15"]),
("M_Turbine.v","(z >=? (#q(-60,100) * R))","(z >=? (#q(60,100) * R))","no_wake zeroes the tube and nothing else","wake mask starts downstream",["C15"]),
("M_Turbine.v","(uy * ux * (#1 - c) + uz * s, sq uy * (#1 - c) + c,       uy * uz * (#1 - c) - ux * s)","(uy * ux * (#1 - c) - uz * s, sq uy * (#1 - c) + c,       uy * uz * (#1 - c) - ux * s)","RotMat_AxisAngle is a rotation","sign error in RotMat_AxisAngle[1,0]",["C19"]),
("M_Turbine.v","else if nabs N u1 >=? t then ret (#0, - u2, u1)","else if nabs N u1 >=? t then ret (#0, u2, u1)","orth_vect returns a unit orthogonal vector","sign error in the second branch of orth_vect",["C21"]),
("M_Turbine.v","(t00 * x + t10 * y + t20 * z, t01 * x + t11 * y + t21 * z, t02 * x + t12 * y + t22 * z)","(t00 * x + t01 * y + t20 * z, t01 * x + t11 * y + t21 * z, t02 * x + t12 * y + t22 * z)","transform_T inverts transform","index error in transform_T",["C20"]),
("M_Turbine.v","let e_r := vscale (t_R t) o in","let e_r := o in","rotor_disk_points are on the rotor circle","radius forgotten in rotor_disk_points",["C22"]),
("M_Turbine.v","if sign =? #0 then ac else sign * ac.","ac.","yaw_wind recovers the wind angle","sign of yaw_wind dropped",["C24"]),
("M_Turbine.v","let yaw_sign := nsign N (dot (cross e_w (t_shaft t)) (t_vert t)) in","let yaw_sign := nsign N (dot (cross (t_shaft t) e_w) (t_vert t)) in","yaw_error is the yaw relative to the wind","swapped arguments of the cross product in yaw_error",["C25"]),
("M_Turbine.v","do _ <- massign (fun t => set_gl t (w_gl w));\n                    massign (fun t => set_Gr t (w_Gr w))\n                | None, None, Some g","massign (fun t => set_gl t (w_gl w))\n                | None, None, Some g","update_loading stores the solved loading","Gamma_r not stored by update_loading with Ct",["C11","C16","C27"]),
("M_Turbine.v","                | None, None, None => mraise (EException \"Unknown loading spec\")","                | None, None, None => mret tt","update_loading raises without a loading","missing case: no loading spec is accepted silently",["C11"]),
("M_Turbine.v","| None => Err (EException \"Please set loading with `update_loading` before calling `compute_u`\")","| None => Ok (fzero pts)","loading is required before querying","compute_u without loading returns zero",["C13"]),
("M_Turbine.v","then let* v := cu_tang1 t o Model chi g Y in Ok (fadd u v) else Ok u in","then let* v := cu_tang1 t o Model chi g Y in Ok v else Ok u in","vorticity components superpose","tangential contribution overwrites the root vortex",["C16"]),
("M_Solver.v","let c := if r <? cut then CT0 * r / cut else #1 * CT0 in","let c := if r <? cut then CT0 * cut / r else #1 * CT0 in","Ct_const_cutoff profile","ramp inverted",["C28"]),
("M_Solver.v","let ap := if bSwirl then Cq / (#4 * (#1 - a) * lambda_r) else #0 in","let ap := if bSwirl then Cq / (#4 * a * lambda_r) else #0 in","stream-tube induction inverts momentum theory","1-a replaced by a",["C29"]),
("M_Solver.v","Definition spera (ct : N) : N := (ct - #4 * sq ac) / (#4 * (#1 - #2 * ac)).","Definition spera (ct : N) : N := (ct - #4 * ac) / (#4 * (#1 - #2 * ac)).","high-thrust correction is C1","square of ac dropped",["C30"]),
("M_Solver.v","| None => #1 - C\n             | Some (k', _)","| None => #1 - k\n             | Some (k', _)","discrete solver intensities","first step uses k instead of C",["C31","C33"]),
("M_Solver.v","let Ctrot := if bSwirl then nsum (d_rl s) else #0 in","let Ctrot := if bSwirl then hd (#0) (d_rl s) else #0 in","discrete solver reproduces momentum","only the last rotational increment subtracted",["C31"]),
("M_Solver.v","| [a] => [a - #0]","| [a] => [#0]","vorticity conserved along the wake","tip circulation dropped in gtilde",["C34"]),
("M_Solver.v","[b + (b - a) / #2]","[b - (b - a) / #2]","cylinders enclose the control points","last cylinder extrapolated inwards",["C35"]),
("M_Solver.v","Definition omega_fix (Omega : N) : N := if Omega =? ninf N then #800 else Omega.","Definition omega_fix (Omega : N) : N := if Omega =? ninf N then #8 else Omega.","infinite tip-speed ratio means no swirl","Omega=inf replaced by 8",["C37"]),
("M_Solver.v","nabs N (k * (#1 + k / (#4 * sq lambda_r)) - Ct).","nabs N (k * (#1 + k / (#4 * lambda_r)) - Ct).","prescribed Ct is met","square of lambda_r dropped in the objective",["C38"]),
("M_Elliptic.v","((xo + l) / #4, (yo + l) / #4, (zo + l) / #4).","((xo + l) / #4, (yo + l) / #4, (zo + l) / #2).","Carlson duplication","z halved instead of quartered in RF",["C42","C43"]),
("M_Ring.v","(Gamma / (#4 * npi N) * R * (z / B * (I1 - A * I2)),","(Gamma / (#4 * npi N) * R * (z / B * (I1 + A * I2)),","ring velocity is Biot-Savart","sign error in the radial velocity of ring_u",["C45","C46"]),
("M_Ring.v","(#0, Gamma / (#2 * R) * (#1 / npow N (#1 + sq (z / R)) (#q(3,2))))","(#0, Gamma / (#2 * R) * (#1 / npow N (#1 + sq (z / R)) (#q(1,2))))","ring velocity on the axis","exponent 1/2 on the axis of ring_u",["C45"]),
("M_Ring.v","if nabs N G >? #0 then vadd u (ring_u G R eps (shift c p)) else u)","if G >? #0 then vadd u (ring_u G R eps (shift c p)) else u)","rings_u is a superposition","rings of negative circulation skipped",["C50"]),
("M_Cylinder.v","if vc_isrim R r z then (#0, gamma / #4) else (#0, vc_axis_uz gamma R z).","(#0, vc_axis_uz gamma R z).","gamma/4 on the rim","rim special case dropped",["C51"]),
("M_Cylinder.v","else if r <? R then #1 else if r =? R then #q(1,2) else #0.","else if r <? R then #1 else #0.","cylinder velocity at r=R","r==R case of T1 dropped",["C53"]),
("M_Cylinder.v","if r =? R then #0 else if PI =? ninf N then #0 else PI.","PI.","finite everywhere","infinite PI not replaced",["C52"]),
("M_Cylinder.v","+ z * k / (#2 * npi N * nsqrt N (r * R)) * (KK + (R - r) / (R + r) * PI)) in\n    (ur, uz).\n  (** VortexCylinder.py:103","+ z * k / (#2 * npi N * nsqrt N (r * R)) * (KK + (r - R) / (R + r) * PI)) in\n    (ur, uz).\n  (** VortexCylinder.py:103","guarded and raw formula agree; stack of rings","sign of (R-r) in vc_tang_u",["C54","C55","C56"]),
("M_Cylinder.v","(zz2 * k2 * (KK2 + (R - r) / (R + r) * PI2)\n                 - zz1 * k1 * (KK1 + (R - r) / (R + r) * PI1)) in","(zz2 * k2 * (KK2 + (R - r) / (R + r) * PI2)\n                 + zz1 * k1 * (KK1 + (R - r) / (R + r) * PI1)) in","finite cylinder is the difference","sign in cylinder_tang_u",["C55"]),
("M_Line.v","let c1 := ze * xa - xe * za in","let c1 := xe * za - ze * xa in","half line Biot-Savart","swapped cross product component",["C60"]),
("M_Line.v","(denominator <? #q(1,1000000000000)) (norm_a <? #q(1,100000))","(denominator <? #q(1,100000)) (norm_a <? #q(1,100000))","half line Biot-Savart outside its cut-off","cut-off on the denominator enlarged to 1e-5",["C60"]),
("M_Line.v","(- nsin N psi * u_psi, ncos N psi * u_psi, #0).","(nsin N psi * u_psi, ncos N psi * u_psi, #0).","straight line Biot-Savart","sign of ux in vl_semiinf_straight_u",["C60","C57"]),
("M_Doublet.v","Definition tI51 (a b c : N) : N := #1 / (a * sq (a * c - b)).","Definition tI51 (a b c : N) : N := #1 / (a * (a * c - b)).","doublet-line closed forms","square dropped in I51",["C63","C64"]),
("M_Doublet.v","(nabs N (x - m * z) <? e8) && (z >=? #0) && (z <=? L) in","(nabs N (x - m * z) <? e8) in","doublet line also upstream on its axis","upstream points on the axis treated as on the line",["C64"]),
("M_Doublet.v","(Fact1 * DX - Fact2 * m0, Fact1 * DY - Fact2 * m1, Fact1 * DZ - Fact2 * m2)","(Fact1 * DX - Fact2 * m0, Fact1 * DY - Fact2 * m1, Fact1 * DZ - Fact2 * m0)","point doublet","index error in the z component of doublet_u",["C65"]),
("M_Skewed.v","(u_z * coschi + u_x * sinchi, - u_z * sinchi + u_x * coschi).","(u_z * coschi + u_x * sinchi, u_z * sinchi - u_x * coschi).","skew projection is a rotation","sign error in skew_components",["C67"]),
("M_Skewed.v","let az := fun th => R * (R - r * ncos N (th - psi)) in","let az := fun th => R * (R - r * ncos N th) in","skewed tangential cylinder is a trapezoid of Biot-Savart rows","psi dropped in az",["C76"]),
("M_Skewed.v","map (fun t => npi N / #2 + t) (linspace (#0) (#2 * npi N) ntheta).","map (fun t => npi N / #2 + t) (linspace (#0) (npi N) ntheta).","quadrature covers the whole circle","theta range halved",["C76"]),
("M_Skewed.v","(I (fun th => nsin N th - r * nsin N psi),","(I (fun th => nsin N th + r * nsin N psi),","skewed longitudinal cylinder","sign error in ux",["C77"]),
("M_Skewed.v","let u_psi := f * (#1 / (#1 - ncos N psi * sinchi) * coschi) in","let u_psi := f * (#1 / (#1 + ncos N psi * sinchi) * coschi) in","rotor plane root vortex","sign error in the rotor-plane formula",["C68"]),
("M_Misc.v","if z >? #0 then #0 else ui0_x * FEPS.","ui0_x * FEPS.","self similar induction","wake not zeroed",["C70"]),
("M_Misc.v","let t0 := - d1 in\n    let t1 := d0 in","let t0 := d1 in\n    let t1 := d0 in","vortex point velocity","sign of the tangential direction",["C71"]),
("M_Misc.v","(match w with None => acc | Some w => map2 (fun a b => a + b) acc w end)","(match w with None => acc | Some w => w end)","vps_u superposition","accumulation replaced by assignment",["C72"]),
("M_Misc.v","if KernelOrder =? 2 then Ok (Some ((fun _ => #1), fE))%num\n      else if KernelOrder =? 4 then Ok (Some ((fun rho2 => #1 - rho2), fE))%num","if KernelOrder =? 2 then Ok (Some ((fun _ => #1), fE))%num\n      else if KernelOrder =? 3 then Ok (Some ((fun rho2 => #1 - rho2), fE))%num","combinations of model and order","Majda order 4 mistyped as 3",["C73"]),
("M_Tictoc.v","d2 (Qfloor (t / 60)) ++ \"m\" ++ d02 (Qfloor t mod 60) ++ \"s\"","d2 (Qfloor (t / 60)) ++ \"m\" ++ d02 (Qfloor t mod 3600) ++ \"s\"","pretty_time six characters","seconds taken modulo 3600",["C74"]),
("M_Tictoc.v","d02 (Qfloor (inject_Z (Qfloor t mod 3600) / 60)) ++ \"m\"","d02 (Qfloor (inject_Z (Qfloor t mod 3600) / 3600)) ++ \"m\"","pretty_time fields","minutes field divided by 3600",["C74"]),
("M_PlaneIO.v","(base ++ \"u.npy\", u); (base ++ \"v.npy\", v)]","(base ++ \"u.npy\", u); (base ++ \"v.npy\", u)]","plane files round trip","v overwritten by u",["C75"]),
# ---- round 2
("M_Elliptic.v","((xo + l) / #4, (yo + l) / #4, (zo + l) / #4).","((xo + l) / #4, (yo + l) / #4, (zo + l) / #2).","Carlson's RF duplication and limit","z halved instead of quartered in RF (rerun)",["C42","C43"]),
("M_Elliptic.v","let l := #2 * nsqrt N (xo * yo) + yo in","let l := #2 * nsqrt N (xo * yo) + xo in","Carlson's RC duplication","x for y in lambda of RC",["C42","C43"]),
("M_Elliptic.v","     rho * sq (rho + l)).","     sq (rho + l)).","Carlson's RJ duplication","factor rho dropped in beta of RJ",["C42","C43"]),
("M_Elliptic.v","map2 (fun a rc => a + #3 * inv4 nIt * rc) rhs1","map2 (fun a rc => a + #3 * inv4 (S nIt) * rc) rhs1","PI converges to the integral","off by one in the power of 4 of the RC sum",["C43"]),
("M_Elliptic.v","(inv4 (S nIt) * npow N mu (#q(-3,2))) *","(inv4 nIt * npow N mu (#q(-3,2))) *","PI converges to the integral","off by one in the power of 4 of the series term",["C43"]),
("M_Elliptic.v","(map2 (fun p rj => #q(1,3) * fst p * rj) nm RJ)","(map2 (fun p rj => #q(1,3) * snd p * rj) nm RJ)","PI converges to the integral","m for n in PI = RF + n/3 RJ",["C43"]),
("M_Elliptic.v","let RJ := RJ_tol tol itmax (map (fun p => (#1 - snd p, #1 - fst p)) nm) in","let RJ := RJ_tol tol itmax (map (fun p => (#1 - fst p, #1 - snd p)) nm) in","PI converges to the integral","arguments of RJ swapped",["C43"]),
("M_Elliptic.v","          let RF := map rf_val st in\n          rf_loop tol fuel (resid RF RFo) (map rf_next st) RF\n        else RFo","          let RF := map rf_val st in\n          rf_loop tol fuel (resid RF RFo) st RF\n        else RFo","the RF iteration converges","state not advanced in the RF loop",["C42","C43"]),
("M_Elliptic.v","let b1 := map (fun p => snd p >? #0) yr in","let b1 := map (fun p => snd p >=? #0) yr in","PI(1,m) is infinite; finiteness","rho=0 not excluded from RJ",["C41","C52"]),
("M_Cylinder.v","let Az := z * nsqrt N m / (#2 * npi N * nsqrt N (r * R)) * (K - (R - r) / (R + r) * PI) in","let Az := z * nsqrt N m / (#2 * npi N * nsqrt N (r * R)) * (K + (R - r) / (R + r) * PI) in","longitudinal cylinder is Biot-Savart","sign of the PI term of vc_longi",["C78"]),
("M_Cylinder.v","            else (- u * nsin N psi, u * ncos N psi, #0)) pts ups.","            else (u * nsin N psi, u * ncos N psi, #0)) pts ups.","longitudinal cylinder is Biot-Savart","sign of ux of vc_longi",["C78","C57"]),
("M_Cylinder.v","nsqrt N (sq Rcp + sq z) >? cut * R.","nsqrt N (sq Rcp + sq z) >? cut.","the far field switch selects by distance relative to R","cut not scaled by R",["C58","C79"]),
("M_Cylinder.v","                  (gamma * sq R * npi N) false in","                  (gamma * R * npi N) false in","the far field approximates the cylinder","doublet intensity gamma*pi*R",["C79"]),
("M_Cylinder.v","(fst u * ncos N psi, fst u * nsin N psi, snd u).","(fst u * nsin N psi, fst u * ncos N psi, snd u).","Cartesian output","sin and cos swapped",["C57","C54","C45"]),
("M_Cylinder.v","  Definition shift (c : pt) (p : pt) : pt :=\n    let '(xc, yc, zc) := c in let '(x, y, z) := p in (x - xc, y - yc, z - zc).","  Definition shift (c : pt) (p : pt) : pt :=\n    let '(xc, yc, zc) := c in let '(x, y, z) := p in (x - xc, y + yc, z - zc).","translation invariance, constant-CT farm","centre added instead of subtracted in y",["C08","C17","C50"]),
("M_Cylinder.v","(x, y + #2 * yc, z).","(x, y + yc, z).","ground plane impermeable","mirror at half the distance",["C26"]),
("M_Cylinder.v","if nabs N (fst gr) >? #0 then fadd u (vc_tang_u_gen (fst gr) (snd gr) eps Y) else u)","if fst gr >? #0 then fadd u (vc_tang_u_gen (fst gr) (snd gr) eps Y) else u)","constant-CT farm, superposition of cylinders","cylinders of negative intensity skipped",["C08","C27"]),
("M_Cylinder.v","    let zz2 := z - z2 in","    let zz2 := z + z2 in","finite cylinder is a difference","sign of z2",["C55"]),
("M_Cylinder.v","gamma / #2 * (#1 + z / nsqrt N (sq z + sq R)).","gamma / #2 * (#1 - z / nsqrt N (sq z + sq R)).","axis velocity","sign of z on the axis",["C51","C53","C54"]),
("M_Farm.v","let gamma_t := - #2 * U0 * a in","let gamma_t := #2 * U0 * a in","constant-CT farm slows the wind","sign of gamma_t",["C08"]),
("M_Farm.v","let g := if mirror then grid_pass nx nz xS zS (- hub) g else g in","let g := if mirror then grid_pass nx nz xS zS hub g else g in","gridLayout positions (mirror)","mirrored turbines at +hub",["C05","C06","C08"]),
("M_Farm.v","if Nat.eqb (len rows) (len f) then layout_loop h f rows","if Nat.leb (len rows) (len f) then layout_loop h f rows","layout setter rejects wrong shapes","a shorter layout is accepted",["C04"]),
("M_Turbine.v","        do _ <- massign (fun t => set_r t r);\n        massign (fun t => set_Ct t Ct)","        massign (fun t => set_r t r)","update_loading replaces the loading","Ct not stored",["C81"]),
("M_Turbine.v","        Ok (Some [#q(995,1000) * R],","        Ok (Some [R],","single cylinder default","single control point at R",["C81"]),
("M_Turbine.v","nsign N (snd (fst e_vert_c)) * (yaw_wind t - t_yaw t).","nsign N (snd (fst e_vert_c)) * (yaw_wind t + t_yaw t).","yaw equivariance","sign of yaw in the skew angle",["C18","C09"]),
("M_Turbine.v","  Definition T_c2g (t : turbine) : mat := mmul (t_Twt2g t) (t_Tc2wt t).","  Definition T_c2g (t : turbine) : mat := mmul (t_Tc2wt t) (t_Twt2g t).","yaw equivariance","matrix product in the wrong order",["C18"]),
("M_Turbine.v","    set_yawf t yaw M (mvec M (t_shaft0 t)).","    set_yawf t yaw M (mvec M (t_shaft t)).","history independence: re-yawing","yaw applied to the current shaft instead of the initial one",["C09","C18","C25"]),
("M_Turbine.v","               Ok (fadd u v)) Ylist (Ok u)\n    | _, _ => Ok u","               Ok v) Ylist (Ok u)\n    | _, _ => Ok u","root vortex of the image is added","only the image's root vortex kept",["C16","C26"]),
("M_Turbine.v","                         fadd u (if skewed chi\n                                 then svcs_longi_u","                         (if skewed chi\n                                 then svcs_longi_u","components superpose (several cylinders)","longitudinal field replaces the tangential one",["C16","C27"]),
("M_Solver.v","      let Vc := map2 (fun b g => U0 * (b + g / #2)) (d_bs st) gbar in","      let Vc := map2 (fun b g => U0 * (b + g)) (d_bs st) gbar in","vorticity is conserved along the wake","convection velocity without the 1/2",["C34"]),
("M_Solver.v","w_gl := if bSwirl then Some (map2 (fun g r => g / (#2 * npi N * r)) gt r_cp) else None;","w_gl := if bSwirl then Some (map2 (fun g r => g / (#4 * npi N * r)) gt r_cp) else None;","vorticity is conserved along the wake","longitudinal intensity halved",["C34"]),
("M_Solver.v","let Sbis := #1 - Cteff in","let Sbis := #1 + Cteff in","discrete solver momentum","sign of Cteff",["C31"]),
("M_Solver.v","if bHigh && (Cteff >? Ct_c) then - b + (#1 - #2 * spera Cteff) else g0 in","if bHigh && (Cteff >? Ct_c) then - b + (#1 - spera Cteff) else g0 in","high thrust branch of the discrete solver","factor 2 dropped",["C31"]),
("M_Solver.v","    rev (map (fun x => - x) (cumsum_from (#0) (map (fun x => x / #2) (rev g)))).","    map (fun x => - x) (cumsum_from (#0) (map (fun x => x / #2) g)).","returned induction","cumulated from the root instead of the tip",["C31"]),
("M_Solver.v","          rev (#0 :: map (fun v => - #8 * v) (cumtrapz (rev y) (rev vr_bar)))","          map (fun v => #8 * v) (cumtrapz y vr_bar)","continuous solver","rotational term integrated from the root",["C40","C34"]),
("M_Solver.v","then minim (k_obj (Lambda * r) c) (#0) (#q(18,10)) else #0) rbar Ct","then minim (k_obj (Lambda * r) c) (#0) (#1) else #0) rbar Ct","prescribed Ct is met","search interval cut at 1",["C38"]),
("M_Solver.v","    let Lambda := Omega * R / U0 in\n    let bSwirl := Lambda <? #20 in\n    let vk","    let Lambda := Omega * R / U0 in\n    let bSwirl := Lambda >? #20 in\n    let vk","infinite tsr means no swirl","swirl test inverted",["C37"]),
("M_Skewed.v","let I f := let vt := svl_vtheta ntheta in","let I f := let vt := svc_vtheta ntheta in","longitudinal quadrature","other abscissae",["C77"]),
("M_Skewed.v","    Ok (fadd (fadd ul ut) ur).","    Ok (fadd ul ut).","total skewed velocity","root vortex dropped in svc_u_polar",["C57"]),
("M_Skewed.v","      * ((fK_b1 r m + fK_j2 r) * Pi1 + (fK_b2 r m - fK_j2 r) * Pi2).\n  (** VortexCylinderSkewed.py:435","      * ((fK_b1 r m - fK_j2 r) * Pi1 + (fK_b2 r m - fK_j2 r) * Pi2).\n  (** VortexCylinderSkewed.py:435","Kzt is Coleman's integral","sign in the Pi1 coefficient",["C69"]),
("M_Skewed.v","    let vt := linspace (#0) (npi N / #2) 1000 in\n    #2 * r / npi N","    let vt := linspace (#0) (npi N / #2) 1000 in\n    #4 * r / npi N","numerical outputs of fKxit and fKzt agree","factor 4 in the numerical Kxit",["C69"]),
("M_Skewed.v","          if nabs N g >? #0 then fadd u (map (svc_tang_u g R m ntheta false) Y) else u)","          if nabs N g >? #0 then fadd u (map (svc_tang_u g R m ntheta false) pts) else u)","skewed superposition","unshifted points used",["C27","C17"]),
("M_Ring.v","(#0, Gamma / (#4 * npi N * r0) * (nlog N (#16 * r0 / eps) - #q(1,4))))","(#0, Gamma / (#4 * npi N * r0) * (nlog N (#8 * r0 / eps) - #q(1,4))))","the two regularised routines differ on the ring","16 replaced by 8 (makes the refuted property true)",["C49"]),
("M_Ring.v","    let z := z' - z0 in","    let z := z' + z0 in","ring_u_polar is Biot-Savart at its own height","sign of z0",["C45"]),
("M_Ring.v","     fact * npow N (r0 / r) (#q(1,2)) * ((B - A) * E + K)).","     fact * npow N (r0 / r) (#q(1,2)) * ((B + A) * E + K)).","ring_u_polar_singular is Biot-Savart","sign of A",["C45","C46"]),
("M_Doublet.v","       d * (y * z * ti50 - y * ti51),","       d * (y * z * ti50 + y * ti51),","doublet line is the integral of doublets","sign in uy",["C64"]),
("M_Doublet.v","else if bOK then c * #1 / sq r * (cube z / p32 norm2 - z / p12 norm2)","else if bOK then c * #1 / sq r * (cube z / p32 norm2 + z / p12 norm2)","polar doublet line equals the Cartesian one","sign in uz of doublet_line_polar_u",["C64"]),
("M_Doublet.v","          m_z / (#4 * npi N) * (#3 * sq DZ / rn5 - #1 / rn3)).","          m_z / (#4 * npi N) * (#3 * sq DZ / rn5 + #1 / rn3)).","polar doublet equals the Cartesian one","sign in doublet_u_polar",["C65"]),
("M_Misc.v","let r12 := nsqrt N (lambda * (eta + sq (z / R))) * R in","let r12 := nsqrt N (lambda * (eta + sq z)) * R in","self-similar induction scales with R","z not divided by R",["C70"]),
("M_Misc.v","let k := #1 - nexp N (- r2 / sq rcore) in","let k := nexp N (- r2 / sq rcore) in","vortex point with a core","1 - exp replaced by exp",["C71"]),
("M_Line.v","      else if (visc_model =? 5)%Z then fin (denominator + t)","      else if (visc_model =? 5)%Z then fin (denominator - t)","core models bounded by the inviscid velocity","sign of the offset core",["C61"]),
("M_Line.v","      let u_psi := Gamma_r / (#4 * npi N * r) * (#1 + z / nsqrt N (sq r + sq z)) in\n      (#0, u_psi, #0).","      let u_psi := Gamma_r / (#4 * npi N * r) * (#1 - z / nsqrt N (sq r + sq z)) in\n      (#0, u_psi, #0).","polar output of the root vortex","sign of z in the polar output",["C57","C60"]),

# round 3
("M_Helpers.v","else if isnan x || (x <? best) then argmin_go x i (S i) l","else if isnan x || (x <=? best) then argmin_go x i (S i) l","find_nearest returns the first nearest entry","last minimum instead of the first",["C109"]),
("M_Helpers.v","else if isnan x || (x <? best) then argmin_go x i (S i) l","else if x <? best then argmin_go x i (S i) l","a NaN entry wins in find_nearest","NaN test dropped",["C109"]),
("M_Helpers.v","map (fun a => nabs N (a - value)) array","map (fun a => a - value) array","find_nearest","absolute value dropped",["C109"]),
("M_Helpers.v","Ok (entry (ad_W AD) (snd z) (snd h)).","Ok (entry (ad_W AD) (snd h) (snd z)).","fCenter is the entry nearest to the origin","row and column swapped",["C109"]),
("M_Helpers.v","(nth (snd z) (ad_W AD) []).","(nth (snd z + 1) (ad_W AD) []).","fRadial is the row nearest to the line","next row",["C109"]),
("M_Helpers.v","Ok ((- #2) * (p0 * x + p1 * sq x + p2 * cube x + p3 * pow4 x))","Ok (#2 * (p0 * x + p1 * sq x + p2 * cube x + p3 * pow4 x))","fitted intensity slows the wind","sign of the fit",["C108"]),
("M_Helpers.v","nabs N (a - b) / a) u1 u2) * #100.","nabs N (a - b) / b) u1 u2) * #100.","relative error","relative to the second curve",["C111"]),
("M_Helpers.v","nabs N (a - b) / a) u1 u2) * #100.","(a - b) / a) u1 u2) * #100.","relative error is at least 0","absolute value dropped",["C111"]),
("M_Helpers.v","Definition relerrinduction_25 := relerrinduction_at (#q(-25,10)).","Definition relerrinduction_25 := relerrinduction_at (#q(25,10)).","error at x=-2.5","sign of the station",["C111"]),
("M_Helpers.v","let Xprobe := linspace x1 x2 100 in","let Xprobe := linspace x1 x2 99 in","100 stations","99 stations",["C111"]),
("M_Helpers.v","if r >? #0 then r else #0","if r >? #0 then #0 else r","coefficient lies in [0,1]","branches swapped",["C110"]),
("M_Helpers.v","let yf := filter (fun p => negb (isnan (fst p) || isnan (snd p))) (map2 pair y f) in","let yf := filter (fun p => negb (isnan (fst p))) (map2 pair y f) in","pairs with a NaN are ignored","NaNs of the fit kept",["C110"]),
("M_Helpers.v","nsum (map (fun v => sq (v - np_mean y)) y) in","nsum (map (fun v => sq (v - np_mean f)) y) in","coefficient of determination","mean of the fit",["C110"]),
("M_Helpers.v","       - x_w * nsin N theta_yaw + z_w * ncos N theta_yaw)","       x_w * nsin N theta_yaw + z_w * ncos N theta_yaw)","Tw2c is a rotation","sign",["C112"]),
("M_Helpers.v","(x_c * ncos N theta_yaw - z_c * nsin N theta_yaw, y_c,","(x_c * ncos N theta_yaw - z_c * nsin N theta_yaw, - y_c,","Tc2w undoes Tw2c","y reversed",["C112"]),
("M_Helpers.v","(Some [- (U0 * ncos N (Yaw * npi N / #180) - u) * #2])","(Some [- (U0 * ncos N (Yaw * npi N / #180) - u)])","matched centre velocity","factor 2 dropped",["C107"]),
("M_Helpers.v","(Some [- (U0 * ncos N (Yaw * npi N / #180) - u) * #2])","(Some [- (U0 - u) * #2])","matched centre velocity in yaw","cos(yaw) dropped",["C107"]),
("M_Helpers.v","let WT := match gamma_t with Some g => set_gt WT (Some [g]) | None => WT end in","","explicit intensity","gamma_t argument ignored",["C107"]),
("M_Helpers.v","let Ground := HH <? #9 in","let Ground := HH >? #9 in","setupModel ground switch","inverted",["C107"]),
("M_Helpers.v","map (fun z => (z * #0, z * #0 + vc_hub VC, z)) z","map (fun z => (z * #0, z * #0, z)) z","axial line passes through the hub","hub height dropped",["C107"]),
("M_Helpers.v","let t := update_wind t (#1, #0, #0) in","let t := update_wind t (#0, #0, #1) in","farm turbines in the wind along x","wind along z",["C108"]),
("M_Helpers.v","    let t := update_yaw_pos t (#0) in\n","","farm turbines aligned (yaw 0)","yaw not set",["C108"]),
("M_Helpers.v","        let* l := farm_load minim f ts' cts' in Ok (t' :: l)","        let* l := farm_load minim f ts' (c :: cts') in Ok (t' :: l)","each turbine gets its own CT","first CT given to all",["C108"]),
("M_Helpers.v","map (fun j => entry M j i) (seq 0 nx)","map (fun j => entry M i j) (seq 0 nx)","turbine loaded with CTs[j][i]","transposition dropped",["C108"]),
("M_Helpers.v","        let Ground := z0 <? #10 in","        let Ground := z0 <=? #10 in","ground effect iff HH<10","boundary",["C108"]),
("M_Helpers.v","map2 (fun xy z => farm_wt (fst xy, snd xy, z) Ground Model)","map2 (fun xy z => farm_wt (snd xy, fst xy, z) Ground Model)","farm layout","x and y swapped",["C108"]),
("M_Helpers.v","if Nat.ltb 1 (len CTs) then","if Nat.ltb 0 (len CTs) then","top line of a single turbine is zeros","boundary",["C108"]),
("M_Helpers.v","        let U0 := Some (#1, #0, #0) in\n","        let U0 := Some (#0, #0, #0) in\n","ADFarm2VCFarm is 1 plus the inductions","free stream dropped",["C108"]),
("M_Helpers.v","(np_sort (lines ++ [#q(14,10); #q(2,10)]), lines).","(lines ++ [#q(14,10); #q(2,10)], lines).","contour levels are ordered","sort dropped",["C113"]),
("M_Helpers.v","let d := List.concat (map (fun s => [Some s; Some s]) seq) in","let d := List.concat (map (fun s => [Some s; None]) seq) in","colours join continuously","right colour missing",["C113"]),
("M_Helpers.v","nth_error (doubled seq) (2 * fst iv), nth_error (doubled seq) (2 * fst iv + 1)","nth_error (doubled seq) (2 * fst iv + 1), nth_error (doubled seq) (2 * fst iv)","colour ramp","left and right swapped",["C113"]),
("M_Helpers.v","    map (fun x => (x - pymin v) / (pymax v - pymin v)) v.","    map (fun x => x / (pymax v - pymin v)) v.","positions in [0,1]","minimum not subtracted",["C113"]),
("M_Curled.v","let gamm := R * ngam nd / (#4 * npi N) in","let gamm := R * ngam nd / (#2 * npi N) in","trailed lines are Biot-Savart half lines","factor 2",["C100","C101"]),
("M_Curled.v","let DenInv := gamm / (Den1 * (Den1 - Den2)) * Ks in","let DenInv := gamm / (Den1 * (Den1 + Den2)) * Ks in","trailed lines go downstream","sign",["C100","C101"]),
("M_Curled.v","(- (zcp - ze) * DenInv, (ycp - ye) * DenInv).","((zcp - ze) * DenInv, (ycp - ye) * DenInv).","the three curled-wake models agree","sign of uy",["C101"]),
("M_Curled.v","| Some s => #1 - nexp N (- d2 / sq s)","| Some s => #1 - nexp N (- d2 / s)","the three curled-wake models agree with smoothing","sigma not squared",["C101"]),
("M_Curled.v","vG := fst s * nsin N yaw * nsin N (fst ts) * (snd s * dTheta);","vG := fst s * nsin N yaw * nsin N (fst ts) * dTheta;","vortex points carry the same circulation","radius dropped",["C101"]),
("M_Curled.v","(removelast thetas).","thetas.","vortex points: the last theta is the first again","last point kept",["C101"]),
("M_Doublet.v","num_quad (fun zp => #1 / p32 (num_r2 x y z m zp)) zmax nQuad.","num_quad (fun zp => #1 / npow N (num_r2 x y z m zp) (#q(5,2))) zmax nQuad.","I30_num converges to I30","exponent 5/2",["C98"]),
("M_Doublet.v","Definition num_r2 (x y z m zp : N) : N := sq (x - m * zp) + sq y + sq (z - zp).","Definition num_r2 (x y z m zp : N) : N := sq (x + m * zp) + sq y + sq (z - zp).","quadratures converge","sign of the skew",["C98"]),
("M_Doublet.v","let '(d1, d2, d3) := doublet_u (#0, #0, mz) (m * z0, #0, z0) p in","let '(d1, d2, d3) := doublet_u (#0, #0, mz) (#0, #0, z0) p in","doublet sums converge","skew dropped",["C99"]),
("M_Doublet.v","        let mz := dmz_dz * (q1 - q0) in\n        Ok","        let mz := dmz_dz * q1 * #2 in\n        Ok","doublet sums converge","twice the strength",["C99"]),
("M_Skewed.v","firstn nout [map snd us; map snd pol;","firstn nout [map snd us; map fst pol;","legacy outputs: u_psi","u_r returned as u_psi",["C114"]),
("M_Skewed.v","map fst skw; map snd skw; map fst pol].","map snd skw; map fst skw; map fst pol].","legacy outputs: u_zeta, u_xi","swapped",["C114"]),
("M_Skewed.v","    fV_arrays m nout pts (map (svc_longi_u_polar gamma_longi (#1) m ntheta false) pts).","    fV_arrays m nout pts (map (svc_longi_u_polar gamma_longi (#1) m ntheta true) pts).","fV_Trailed","polar output taken as Cartesian",["C114"]),
("M_Alias.v","if Nat.eqb str 1 then (m, v) else alloc_lib m (read3 m v)","alloc_lib m (read3 m v)","arrays are shared","arrays always copied (makes the refuted property true)",["C115"]),
("M_Alias.v","    if Corder then AArr b (3 * k) 1 else AArr b k n.","    if Corder then AArr b k 1 else AArr b k n.","rows of a layout","wrong offset of a row",["C115"]),
("M_Alias.v","let '(m, vv) := as_column m vert in","let '(m, vv) := as_column m shaft in","constructor takes its vectors","vertical read from the shaft argument",["C115"]),
("M_Alias.v","upd (w_wt w) i {| c_t := c_t c; c_hub := c_hub c; c_wind := v;","upd (w_wt w) i {| c_t := c_t c; c_hub := v; c_wind := c_wind c;","update_wind","the hub is replaced",["C115"]),
("M_Solver.v","let k2 := map2 (fun cl a => fst cl * snd cl / (#1 - a))","let k2 := map2 (fun cl a => fst cl * snd cl / (#1 + a))","torque option","sign of a",["C116"]),
("M_Solver.v","          rev (#0 :: map (fun v => - #8 * v) (cumtrapz (rev y) (rev vr_bar)))","          rev (#0 :: map (fun v => #8 * v) (cumtrapz (rev y) (rev vr_bar)))","rotation term","sign",["C116"]),
("M_Solver.v","          rev (#0 :: map (fun v => - #8 * v) (cumtrapz (rev y) (rev vr_bar)))","          rev (map (fun v => - #8 * v) (cumtrapz (rev y) (rev vr_bar)) ++ [#0])","rotation term vanishes at the tip","zero at the root instead of the tip",["C116"]),
("M_Solver.v","      let CtKJ := map2 (fun k a => k * (#1 + a)) k ap in","      let CtKJ := map2 (fun k a => k * (#1 - a)) k ap in","Kutta-Joukowski thrust","sign of a'",["C116"]),
("M_Helpers.v","relerrinduction_at (#q(-25,10))","relerrinduction_at (#q(25,10))","error at x=-2.5","sign of the station",["C111"]),
("M_Keys.v","Ok (if 20 <? z then 99 else z)","Ok (if 20 <=? z then 99 else z)","Lambda=20 is not uniform","boundary",["C117"]),
("M_Keys.v","  | LFloat q => if Qlt_b 20 q then Ok 99 else Err EValueError","  | LFloat q => Ok (if Qlt_b 20 q then 99 else Qfloor q)","a float Lambda raises","floats accepted",["C117"]),
("M_Keys.v","YInt z => Ok (- z)","YInt z => Ok (Z.abs z)","opposite yaws have different data","sign of the yaw lost",["C117"]),
("M_Keys.v",'"_HH" ++ sd02 hh ++ "_Lambda" ++ sd02 l','"_HH" ++ sd02 l ++ "_Lambda" ++ sd02 l',"different hub heights have different data","Lambda printed twice",["C117"]),
("M_Keys.v",'"CT0" ++ sdec ct ++ "_HH" ++ sd02 hh','"CT0" ++ sdec ct ++ sd02 hh',"keys are unambiguous","separator dropped",["C117"]),
("M_Keys.v","    if negb Horizontal then Ok None","    if Horizontal then Ok None","vertical planes have no free-field data","test inverted",["C117"]),
("M_Keys.v","(0 <? Z.abs y) && negb (l =? 99)","(0 <? y) && negb (l =? 99)","yawed cases need Lambda above 20","absolute value dropped",["C117"]),
("M_Keys.v","(l =? 6) || (l =? 99)","(l =? 6)","ground cases for Lambda 6 or above 20","99 dropped",["C117"]),
("M_Keys.v",'csv_fields (base ++ "_" ++ sDir Horizontal)','csv_fields (base ++ "_" ++ sDir true)',"planes have different data","orientation ignored",["C117"]),
("M_Keys.v","  let HH := if f_gt9 A HH then f_99 A else HH in\n","","all hub heights above 9 are one case","cap dropped",["C117"]),
("M_Keys.v","f_mul A CT 100) in\n  let* hh","f_mul A CT 10) in\n  let* hh","different hundredths have different data","factor 10",["C117"]),
("M_Keys.v","let* n := f_round A (f_mul A CT 100) in","let* n := f_int A (f_mul A CT 100) in","nearest hundredth","truncation instead of rounding",["C117"]),
("M_Keys.v","  f_is2 x := SFeqb x (b64_of_Z 2) |}","  f_is2 x := SFltb x (b64_of_Z 2) |}","grid of hub height 2","comparison",["C117"]),
("M_Keys.v",'  if String.eqb Layout "1x1" then Ok 0\n  else match S with\n       | SInt z','  match S with\n       | SInt z',"spacing ignored for one turbine","test dropped",["C118"]),
("M_Keys.v","if Qeq_bool (inject_Z i) q then Ok i else Err (EException \"\")","Ok i","fractional spacing raises","check dropped",["C118"]),
("M_Keys.v",'"_ct" ++ f042 CT ++ "_hh" ++ f042 HH','"_ct" ++ f042 CT ++ "_hh" ++ f042 CT',"hub heights are distinguished","CT printed twice",["C118"]),
("M_Keys.v",'dec (h / 100) ++ "." ++ d02 (h mod 100)','dec (h / 100) ++ "." ++ dec (h mod 100)',"two decimals","zero padding dropped",["C118"]),
("M_Keys.v","if String.eqb k' k then Ok v else lookup d k","if String.eqb k' k then Ok v else Ok v","a missing case raises KeyError","first entry returned",["C118"]),
("M_Keys.v","  if negb (zprod shape =? Z.of_nat (len (af_ct f))) then Err EValueError\n  else\n    let* mid := line f 0 in","  if negb (zprod shape <=? Z.of_nat (len (af_ct f))) then Err EValueError\n  else\n    let* mid := line f 0 in","size check","inequality",["C118"]),
("M_Keys.v","let* top := line f 1 in Ok (f, mid).","let* top := line f 1 in Ok (f, top).","middle line","top line returned",["C118"]),
("M_Keys.v",'then Err (EUnboundLocal "X_top") else','then let* mid := line f 0 in Ok (f, mid) else',"top line of one turbine fails","middle line returned",["C118"]),
("M_Keys.v","firstn m (skipn (i * m) l)","firstn m (skipn (i * n) l)","rows of the reshaped array","stride of the other axis",["C118"]),
("M_Keys.v","| Eq => l | Gt => y :: qinsert x r","| Eq => x :: l | Gt => y :: qinsert x r","distinct positions","repetition kept",["C118"]),
("M_Keys.v","map (fun x => x / inject_Z s)%Q","map (fun x => x * inject_Z s)%Q","positions in spacings","multiplied",["C118"]),
("M_Keys.v","np_interp [nQ N (-25) 10] (map fst (snd r)) (map snd (snd r))","np_interp [nQ N (-25) 10] (map snd (snd r)) (map fst (snd r))","interpolation of velocity over position","swapped",["C118"]),
('M_Solver.v', '          rev (#0 :: map (fun v => - #8 * v) (cumtrapz (rev y) (rev vr_bar)))', '          map (fun v => #8 * v) (cumtrapz y vr_bar)', 'rotation term of the continuous solver', 'rotational term integrated from the root (again, after C116)', ['C116']),
("M_Cylinder.v","else if r <? R then #1 else if r =? R then #q(1,2) else #0.","else if r <=? R then #1 else #0.","on the sheet the axial velocity is between a quarter and a half","boundary: the sheet treated as inside",["C119","C121","C122"]),
("M_Cylinder.v","sqrt N (r * R)) * (KK + (R - r) / (R + r) * PI)) in\n    (ur, uz).\n  (** VortexCylinder.py:101","sqrt N (r * R)) * (KK + (r - R) / (R + r) * PI)) in\n    (ur, uz).\n  (** VortexCylinder.py:101","signs of the axial velocity","sign of (R-r)",["C119","C121","C122","C105"]),
("M_Cylinder.v","let ur := - gamma / (#2 * npi N) * nsqrt N (R / r)","let ur := gamma / (#2 * npi N) * nsqrt N (R / r)","expansion of the flow; mass conservation","sign of u_r",["C119","C120","C121"]),
("M_Cylinder.v","let ur := - gamma / (#2 * npi N) * nsqrt N (R / r)","let ur := - gamma / (npi N) * nsqrt N (R / r)","mass conservation","factor 2 on u_r",["C121"]),
("M_Cylinder.v","gamma / #2 * (#1 + z / nsqrt N (sq z + sq R)).","gamma / #2 * (#1 - z / nsqrt N (sq z + sq R)).","velocity on the axis grows downstream","sign of z on the axis",["C119","C120","C122","C105"]),
("M_Cylinder.v","if vc_isrim R r z then (#0, gamma / #4) else","if vc_isrim R r z then (#0, gamma / #2) else","a quarter at the rim","a half at the rim",["C122"]),
("M_Ring.v","((R + r * A / B) * I2 - r / B * I1)).","((R - r * A / B) * I2 - r / B * I1)).","the ring's flow is divergence and curl free","sign in u_z",["C121"]),
("M_Ring.v","(Gamma / (#4 * npi N) * R * (z / B * (I1 - A * I2)),","(Gamma / (#2 * npi N) * R * (z / B * (I1 - A * I2)),","the ring's flow is divergence and curl free","factor 2 in u_r",["C121"]),
("M_Doublet.v","let Fact1 := #1 / (#4 * npi N) * #3 * m_dot_r / rn5 in","let Fact1 := #1 / (#4 * npi N) * #2 * m_dot_r / rn5 in","the doublet's flow is divergence free","factor 2 for 3",["C121"]),
("M_Doublet.v","else (Fact1 * DX - Fact2 * m0,","else (Fact1 * DX + Fact2 * m0,","the doublet's flow is irrotational","sign in u_x",["C121"]),
("M_Doublet.v","d * (sq z * ti50 + ti52 - #2 * z * ti51 - i30)).","d * (sq z * ti50 + ti52 - #2 * z * ti51)).","the doublet line's flow is divergence free","I30 dropped",["C121"]),
("M_Turbine.v","map (fun v => vadd v (t_U0 t)) ug)","ug)","compute_u includes the free wind","free wind dropped",["C120","C105","C106"]),
("M_Turbine.v","option_map (fun c => [np_mean c]) Ct,","option_map (fun c => [nsum c]) Ct,","the thrust coefficient used is the mean","sum instead of mean",["C120","C106"]),
("M_Turbine.v","else if String.eqb Model \"VC\" then Ok (vc_tang_u g (t_R t) (#0) Y)","else if String.eqb Model \"VC\" then Ok (vc_tang_u (#2 * g) (t_R t) (#0) Y)","half of the intensity at the rotor","intensity doubled",["C120","C105","C106"]),
("M_Turbine.v","let t' := set_chif t (Some chi) in","let t' := set_chif (set_U0 t (#0, #0, #0)) (Some chi) in","compute_u leaves the object as it is but for the cached skew","wind reset by the query",["C10"]),
("M_Turbine.v","let v := vsubs shaft (dot shaft vert) in vdivs v (norm v).","let v := vsub shaft (vscale (dot shaft vert) vert) in vdivs v (norm v).","makes the refuted property true","projection written correctly",["C23"]),
("M_Turbine.v","let v := vsubs shaft (dot shaft vert) in vdivs v (norm v).","let v := vsubs shaft (dot shaft vert) in v.","horizontal unit vector","normalisation dropped",["C23"]),
("M_Turbine.v","massign (fun t => set_r t r);","massign (fun t => t);","the radii stored are those of the loading","radii not stored",["C86","C81"]),
("M_Solver.v","else if rc0 =? #0 then Err (EException \"First cylinder at 0, impossible\")\n    else","else","a first cylinder of radius 0 raises","check dropped",["C36"]),
("M_Solver.v","if amax rc <? amax r_cp then Err (ENameError \"warnings\")\n    else","","the check on the radii (refuted: NameError)","check dropped",["C95"]),
("M_Solver.v","if a =? #0 then\n          match l' with [] => Err EIndexError | b :: _ => Ok (b * f :: l') end\n        else Ok l","if a =? #0 then\n          match l' with [] => Err EIndexError | b :: _ => Ok (b * f :: l') end\n        else Ok (a * f :: l')","arrays not starting at 0 are left alone","first entry always overwritten",["C39"]),
("M_Solver.v","w_a := a; w_ap := a_prime; w_h := h; w_rcp_after := r_cp |}\n    end.","w_a := a; w_ap := a_prime; w_h := h; w_rcp_after := rc |}\n    end.","the discrete solver leaves r_cp alone","r_cp overwritten with the cylinder radii",["C39"]),
("M_Misc.v","let ndimCP' := ndim in Nat.eqb ndim ndimCP'.","Nat.eqb ndim ndimCP.","dimension check (makes the refuted property true)","check written correctly",["C93"]),
("M_Curled.v","| Some s => #1 - nexp N (- d2 / sq s)","| Some s => nexp N (- d2 / sq s)","smoothed models (refuted: NaN on the lines)","1- dropped",["C102","C101"]),
("M_Curled.v","let DenInv := gamm / denom * Ks in","let DenInv := gamm / (denom + #1) * Ks in","smoothed models (makes the refuted property true)","regularised denominator",["C102"]),
("M_Doublet.v","(b - sq c * x) / ((sq b - sq a * sq c) *","(b + sq c * x) / ((sq b - sq a * sq c) *","closed forms equal their integrals","sign in I30",["C90","C91"]),
("M_Doublet.v","let s := nsign N b in #3 * s / (#4 * c * pow4 (a - s * c * x)).","let s := nsign N b in #3 * s / (#4 * c * pow4 (a + s * c * x)).","closed forms equal their integrals","sign in the collinear I50",["C90"]),
("M_Doublet.v","(d * (x * z * ti50 + m * ti52 - (m * z + x) * ti51),","(d * (x * z * ti50 + m * ti52 - (m * z - x) * ti51),","the doublet line approximates the skewed cylinder","sign in u_x",["C103","C121"]),
("M_Farm.v","let a := #q(5,10) * (#1 - nsqrt N (#1 - CT)) in","let a := #q(5,10) * (#1 - nsqrt N (#1 + CT)) in","a farm slows the flow","sign of CT",["C122"]),
("M_Farm.v","let g := if mirror then grid_pass nx nz xS zS (- hub) g else g in","let g := if mirror then grid_pass nx nz xS zS hub g else g in","image turbines","images at +hub",["C122"]),
("M_Farm.v","Ok (vcs_tang_u_gen PIb (#0) false cyls pts).","Ok (vcs_tang_u_gen PIb (#0) mirror cyls pts).","image turbines counted once","ground added twice",["C122"]),
("M_Study.v","Definition u25D_th (CT0 R zT : N) : N :=\n    #1 - #q(5,10)","Definition u25D_th (CT0 R zT : N) : N :=\n    #1 - #1","0 percent for one turbine","factor 1/2 dropped",["C122"]),
("M_Study.v","let DeltaUz := vn - vg in","let DeltaUz := vg - vn in","the ground effect is positive","difference reversed",["C122"]),
("M_Study.v","[(#0, y, zT)] in","[(zT, y, #0)] in","velocity upstream of the middle column","coordinates swapped",["C122"]),
("M_Study.v","let* vg := vuz_wf HH zT R CT0 U0 nx Spacing nz Spacing HH true in","let* vg := vuz_wf (#0) zT R CT0 U0 nx Spacing nz Spacing HH true in","difference at the same point","point on the ground",["C122"]),
('M_Elliptic.v', '(map2 (fun p rj => #q(1,3) * fst p * rj) nm RJ)', '(map2 (fun p rj => #q(1,3) * snd p * rj) nm RJ)', 'the cylinder velocity converges with the Carlson iteration', 'm for n in PI = RF + n/3 RJ (against C97)', ['C97']),
# round 6
("M_Skewed.v","let az := fun th => R * (R - r * ncos N (th - psi)) in\n    let bz","let az := fun th => R * (R + r * ncos N (th - psi)) in\n    let bz","the rotor disc velocity of a skewed cylinder","sign in a_z",["C123","C126"]),
("M_Skewed.v","let bz := fun th => R * m * ncos N th in","let bz := fun th => - R * m * ncos N th in","the skewed cylinder velocity is that of its rings","sign in b_z",["C123","C124","C126"]),
("M_Skewed.v","#2 * m * R * ncos N th - #2 * m * r * ncos N psi - #2 * z.","#2 * m * R * ncos N th - #2 * m * r * ncos N psi + #2 * z.","velocities at mirrored points","sign of z in b",["C123","C126"]),
("M_Skewed.v","- r * (r + #1) / (#2 * m * npi N * nsqrt N (sq m + sq r))\n      * ((fK_b1 r m + fK_j2 r) * Pi1","- r * (r + #1) / (#2 * m * npi N * nsqrt N (sq m + sq r))\n      * ((fK_b1 r m - fK_j2 r) * Pi1","fKzt is the fore-aft variation","sign of j^2 with PI1",["C124"]),
("M_Skewed.v","#1 / npi N * nsqrt N (#1 / r) * ((#2 - k2) / k","#2 / npi N * nsqrt N (#1 / r) * ((#2 - k2) / k","fKxit is the radial velocity at m=0","factor 2",["C124"]),
("M_Skewed.v","Definition fK_m2 (r m : N) : N := (nsqrt N (#1 + sq m) - nsqrt N (sq r + sq m)) / (#1 + r).","Definition fK_m2 (r m : N) : N := (nsqrt N (#1 + sq m) + nsqrt N (sq r + sq m)) / (#1 + r).","fKzt is the fore-aft variation","m2 as m1",["C124"]),
("M_Elliptic.v","RJ_tol tol itmax (map (fun p => (#1 - snd p, #1 - fst p)) nm)","RJ_tol tol itmax (map (fun p => (#1 - snd p, #1 + fst p)) nm)","special values of the third kind integral","1+n",["C125"]),
("M_Elliptic.v","let RF := RF_tol tol itmax (map (fun p => #1 - snd p) nm) in","let RF := RF_tol tol itmax (map (fun p => #1 - fst p) nm) in","special values of the third kind integral","n for m in RF",["C125"]),
("M_Elliptic.v","map2 (fun a rc => a + #3 * inv4 nIt * rc) rhs1","map2 (fun a rc => a + #3 * inv4 (S nIt) * rc) rhs1","special values of the third kind integral","power of 4 in RJ",["C125"]),
("M_Ring.v","if nabs N G >? #0 then vadd u (ring_u G R eps (shift c p)) else u)","if nabs N G >? #0 then vadd u (ring_u G R eps p) else u)","rings make the cylinder","centre ignored",["C126"]),
("M_Ring.v","let I2 := #4 / cube a * E / (#1 - m) in\n      (Gamma","let I2 := #4 / cube a * E / (#1 + m) in\n      (Gamma","a ring is a doublet far away","1+m in I2",["C126","C127","C128"]),
("M_Ring.v","let A := sq z + sq r + sq R in\n      let B := - #2 * r * R in\n      let K := nellipk N m in\n      let E := nellipe N m in\n      let I1 := #4 / a * K in\n      let I2 := #4 / cube a * E / (#1 - m) in\n      (Gamma","let A := sq z + sq r - sq R in\n      let B := - #2 * r * R in\n      let K := nellipk N m in\n      let E := nellipe N m in\n      let I1 := #4 / a * K in\n      let I2 := #4 / cube a * E / (#1 - m) in\n      (Gamma","a ring is a doublet far away","sign of R^2 in A",["C126","C127","C128"]),
("M_Ring.v","(#0, Gamma / (#2 * R) * (#1 / npow N (#1 + sq (z / R)) (#q(3,2))))","(#0, Gamma / (#2 * R) * (#1 / npow N (#1 + sq (z / R)) (#q(1,2))))","axis zone of a ring","exponent 1/2 on the axis",["C128"]),
("M_Doublet.v","let Fact2 := #1 / (#4 * npi N) / rn3 in\n    if bSing","let Fact2 := #1 / (#2 * npi N) / rn3 in\n    if bSing","a ring is a doublet far away","factor 2 on the second term",["C127"]),
("M_Cylinder.v","let Ar := (r - R + nabs N (R - r)) / (#2 * nabs N (R - r)) in","let Ar := (R - r + nabs N (R - r)) / (#2 * nabs N (R - r)) in","jump across the longitudinal sheet","inside and outside exchanged",["C130","C131"]),
("M_Cylinder.v","* (K - (R - r) / (R + r) * PI) in","* (K + (R - r) / (R + r) * PI) in","jump across the longitudinal sheet","sign of the PI term",["C130"]),
("M_Cylinder.v","else if r <? R then #1 else if r =? R then #q(1,2) else #0.","else if r <? R then #1 else #0.","mean value on the tangential sheet","sheet treated as outside",["C130"]),
("M_Solver.v","w_Gr := if bSwirl then Some (- (hd (nnan N) G)) else None;","w_Gr := if bSwirl then Some (hd (nnan N) G) else None;","swirl of the wake","sign of the root vortex",["C131"]),
("M_Solver.v","| a :: ((b :: _) as g') => (a - b) :: gtilde g'","| a :: ((b :: _) as g') => (b - a) :: gtilde g'","swirl of the wake","difference reversed",["C131"]),
("M_Solver.v","(b + a) / #2 :: (match r'' with","b :: (match r'' with","axial profile at the rotor","cylinders at the next station",["C132"]),
("M_Solver.v","let b := match d_next s with None => #1 | Some _ => #1 + nsum (d_gs s) end in","let b := match d_next s with None => #1 | Some _ => #1 - nsum (d_gs s) end in","axial profile at the rotor","sign of the outer sheets",["C132"]),
("M_Solver.v","let Cteff := Cti - Ctrot in\n    let Sbis","let Cteff := Cti + Ctrot in\n    let Sbis","axial profile at the rotor","sign of the rotation loss",["C132"]),
("M_Farm.v","| Ok v => farm_loop h' f' o pts (fadd u v)","| Ok v => farm_loop h' f' o pts (match f' with [] => v | _ => fadd u v end)","superposition in binary64","the last turbine replaces the sum",["C133"]),
("M_Farm.v","| Ok v => farm_loop h' f' o pts (fadd u v)","| Ok v => farm_loop h' f' o pts (map2 vsub u v)","superposition in binary64","turbines subtracted",["C133"]),
("M_Farm.v","Ok (match U0 with None => u | Some U => map (fun v => vadd v U) u end)).","Ok u).","superposition in binary64","free stream dropped",["C133"]),
("M_Turbine.v","let sign := nsign N (dot (cross (t_horz t) (t_U0 t)) (t_vert t)) in\n    let ac := nacos N (dot e_w (t_horz t)) in","let sign := nsign N (dot (cross (t_U0 t) (t_horz t)) (t_vert t)) in\n    let ac := nacos N (dot e_w (t_horz t)) in","sign of the wind angle in binary64","cross product reversed",["C134"]),
("M_Turbine.v","let ac := nacos N (dot e_w (t_horz t)) in\n    if sign","let ac := nacos N (dot u_horz (t_horz t)) in\n    if sign","wind angle in binary64","normalisation dropped",["C134"]),
("M_Turbine.v","let ac := nacos N (dot e_w (t_horz t)) in\n    if sign","let d := dot e_w (t_horz t) in\n    let ac := nacos N (if d >? #1 then #1 else d) in\n    if sign","the skew is lost (the fixed program)","argument of arccos clipped",["C134"]),
("M_Turbine.v","Definition skewed (chi : N) : bool := nabs N chi >? #q(1,10000000).","Definition skewed (chi : N) : bool := nabs N chi >? #q(1,100000000).","aligned wind treated as unskewed in binary64","threshold 1e-8",["C134"]),
("M_Cylinder.v","gamma / #2 * (#1 + z / nsqrt N (sq z + sq R)).","gamma / #2 * (#1 + z / nsqrt N (sq z) ).","axis velocity in binary64","R^2 dropped",["C135"]),
("M_Cylinder.v","gamma / #2 * (#1 + z / nsqrt N (sq z + sq R)).","gamma / #2 * (nsqrt N (sq z + sq R) + z) / nsqrt N (sq z + sq R).","axis velocity in binary64","common denominator (algebraically equal, rounds differently)",["C135"]),
("M_Threads.v","| None => do w <- yaw_windP i; do y <- readP i aYaw;\n              writeP i aChi (Some (nsign N (snd (fst e_vert_c)) * (w - y)))","| None => do w <- yaw_windP i; do _ <- writeP i aChi (Some w); do y <- readP i aYaw;\n              writeP i aChi (Some (nsign N (snd (fst e_vert_c)) * (w - y)))","concurrent queries return what they return alone","skew angle cached before it is final",["C140","C142"]),
("M_Threads.v","| None => do w <- yaw_windP i; do y <- readP i aYaw;\n              writeP i aChi (Some (nsign N (snd (fst e_vert_c)) * (w - y)))","| None => do w <- yaw_windP i; do y <- readP i aYaw;\n              writeP i aChi (Some (nsign N (snd (fst e_vert_c)) * w))","concurrent queries return what they return alone","yaw dropped from the skew angle",["C140","C142"]),
("M_Threads.v","        lift (Ok (map (transform M) u))\n    end.","        do _ <- writeP i aChi None; lift (Ok (map (transform M) u))\n    end.","concurrent queries return what they return alone","the cache cleared at the end of each query",["C140","C142"]),
("M_Threads.v","    | i :: f => do _ <- readP i aClass; do v <- compute_uP i (farm_opts o) pts; field_loopP f o pts (fadd u v)","    | i :: f => do _ <- readP i aClass; do w <- readP i aU0; do _ <- writeP i aU0 (#0, #0, #0); do v <- compute_uP i (farm_opts o) pts; do _ <- writeP i aU0 w; field_loopP f o pts (fadd u v)","queries are safe to interrupt and to run concurrently","the wind set to zero during the farm query and restored after",["C140","C142"]),
("M_Threads.v","    else do w0 <- readP i aU0; do w1 <- readP i aU0; do w2 <- readP i aU0;\n         lift (Ok (map (fun v => vadd v (fst (fst w0), snd (fst w1), snd w2)) ug)).","    else do w0 <- readP i aU0;\n         lift (Ok (map (fun v => vadd v w0) ug)).","the free stream is torn (the fixed program)","the wind read once",["C141"]),
("M_Threads.v","    do M <- readP i aTwt2g; do s0 <- readP i aShaft0;\n    writeP i aShaft (mvec M s0).","    do M <- readP i aTwt2g; do s0 <- readP i aShaft;\n    writeP i aShaft (mvec M s0).","an interrupted yaw can be made again","the shaft rotated from its current direction",["C140","C142"]),
("M_Threads.v","    do _ <- writeP i aYaw yaw;\n    do v <- readP i aVert;","    do y <- readP i aYaw; do _ <- writeP i aYaw (y + yaw);\n    do v <- readP i aVert;","an interrupted yaw can be made again","yaw increments",["C140","C142"]),
("M_Threads.v","    do _ <- writeP i aGt (Some g); do _ <- writeP i aGl (Some gl); writeP i aGr Gr.","    do _ <- writeP i aGl (Some gl); do _ <- writeP i aGt (Some g); writeP i aGr Gr.","states left by an interrupted loading","gamma_l assigned before gamma_t",["C143"]),
("M_Threads.v","        do _ <- writeP i aLambda (Some L);\n        do _ <- writeP i ar r;","        do _ <- writeP i aLambda (Some L);","the calls are the methods; loading","r not stored",["C140","C142","C143"]),
("M_Threads.v","        do _ <- writeP i aLambda (Some L);\n        do _ <- writeP i ar r;","        do _ <- writeP i aLambda (Some (L + #1));\n        do _ <- writeP i ar r;","an interrupted loading can be made again","Lambda stored incremented",["C140","C142"]),
("M_Threads.v","        do R1 <- readP i aR;\n        let Omega := L * U0 / R1 in","        do _ <- writeP i ar r; do R1 <- readP i aR;\n        let Omega := L * U0 / R1 in","a refused loading changes nothing; states left","radii assigned before the solve",["C143"]),
("M_Threads.v","    | i :: f, p :: rows => do _ <- readP i aClass; do _ <- writeP i aHub p; layout_loopP f rows","    | i :: f, p :: rows => do c <- readP i aHub; do _ <- writeP i aHub (vadd c p); layout_loopP f rows","an interrupted layout can be made again","displacements instead of positions",["C140","C142"]),
("M_Threads.v","| S n, Put i a v k => stop n (store h i a v) k","| S n, Put i a v k => stop n h k","states left by an interrupted loading","interrupted assignments undone (a transaction: the fixed program)",["C143"]),
("M_AliasLoad.v","    | Ok _ => {| l_t := t'; l_r := match nCyl with None => r | Some _ => None end;","    | Ok _ => {| l_t := t'; l_r := r;","loading taken by value when nCyl is given","radii kept by reference with nCyl",["C138"]),
("M_AliasLoad.v","    | Ok _ => {| l_t := t'; l_r := match nCyl with None => r | Some _ => None end;","    | Ok _ => {| l_t := t'; l_r := None;","radii overwritten by the caller (the fixed program)","radii copied",["C138"]),
("M_AliasLoad.v","        | Ok RSame => match nCyl with None => Ctb | Some _ => None end","        | Ok RSame => None","effect of a write to a kept array","gamma_t copied when the function returns its argument",["C138"]),
("M_AliasLoad.v","    | Err _ => {| l_t := t'; l_r := l_r c; l_c := l_c c; l_g := l_g c |}","    | Err _ => {| l_t := t'; l_r := None; l_c := l_c c; l_g := l_g c |}","effect of a write to a kept array","radii detached by a refused loading",["C138"]),
("M_Cylinder.v","(x, y + #2 * yc, z).","(x, y + #q(19,10) * yc, z).","ground exactly impermeable in binary64","image at 1.9 hub heights",["C139"]),
("M_Solver.v","if Omega =? ninf N then #800 else Omega.","if Omega =? ninf N then #8 else Omega.","thrust to axis velocity in binary64","rotation 8 instead of 800",["C137"]),
("M_PlaneConc.v","Open (file 2 base); Write (file 2 base) u;","Open (file 3 base); Write (file 3 base) u;","planes used by several processes","u saved under the name of v",["C144"]),
("M_PlaneConc.v","Open (file 3 base); Write (file 3 base) v]","Open (file 3 base)]","planes used by several processes","v file opened but never written",["C144"]),
("M_PlaneConc.v","[Read (file 0 base); Read (file 1 base);","[Read (file 1 base); Read (file 0 base);","planes used by several processes","x and y swapped by loadPlane",["C144"]),
("M_PlaneConc.v","Some d => (x, y, d u, d v)","Some d => (x, y, d u, v)","planes used by several processes","v not divided",["C144"]),
("M_PlaneConc.v","norm base ++ match k with 0","norm EmptyString ++ match k with 0","planes used by several processes","name ignored: all planes in the same files",["C144"]),
("M_PlaneConc.v","| Write n a => fun m => if String.eqb m n then Full a else f m","| Write n a => fun m => if String.eqb m n then (match f m with Full _ => f m | _ => Full a end) else f m","planes used by several processes","first writer wins",["C144"]),
("M_Elliptic.v","Definition resid (a b : list N) : N := amax (map2 (fun x y => nabs N (x - y)) a b).","Definition resid (a b : list N) : N := hd (#0) (map2 (fun x y => nabs N (x - y)) a b).","only the set of points matters","residual of the first point",["C145"]),
("M_Elliptic.v","Definition resid (a b : list N) : N := amax (map2 (fun x y => nabs N (x - y)) a b).","Definition resid (a b : list N) : N := fold_left (fun s x => s + x) (map2 (fun x y => nabs N (x - y)) a b) (#0).","only the set of points matters","sum of the residuals",["C145"]),
("M_Shape.v","(if Nat.eqb n 1 then O else i) :: clip s r","i :: clip s r","arrays of any shape","dimensions of size one not repeated",["C146"]),
("M_Shape.v","n :: s, i :: r => (i + n * ravel s r)%nat","n :: s, i :: r => (ravel s r + i * fold_right Nat.mul 1 s)%nat","arrays of any shape","Fortran order",["C146"]),
("M_Shape.v","else if Nat.eqb b 1 then Some (a :: s) else None","else None","arrays of any shape","Y and Z must not have dimensions of size one",["C146"]),
("M_Shape.v","Definition at_least_1d (s : list nat) : list nat := match s with [] => [1]%nat | _ => s end.","Definition at_least_1d (s : list nat) : list nat := s.","arrays of any shape","hub of shape (3,): scalars accepted",["C146"]),
("M_Shape.v","let* _ := cu_tang1 t o Model chi g Y in Ok true","let* _ := cu_tang1 t o Model chi g Y in Ok false","arrays of any shape","tangential contribution lost when X is smaller",["C146"]),
("M_Shape.v","vals := map2 (fun x y => x + y) (vals a) (vals b)","vals := map2 (fun x y => x - y) (vals a) (vals b)","arrays of any shape","turbines subtracted",["C146"]),
("M_Shape.v","vals := map (fun v => v + b) (vals y)","vals := map (fun v => v + c) (vals y)","arrays of any shape","free stream component swapped",["C146"]),
("M_Shape.v","if same_shape s (shape X) then","if true then","arrays of any shape","accumulators of the broadcast shape",["C146"]),
("M_Turbine.v","Ok (Some [#q(995,1000) * R],","Ok (Some [#q(995,1000)],","choice of units","control point of the single cylinder at 0.995 instead of 0.995 R",["C147"]),
("M_Turbine.v","let Omega := L * U0 / t_R self in","let Omega := L * U0 in","choice of units","rotational speed not divided by the radius",["C147"]),
("M_Solver.v","w_gl := if bSwirl then Some (map2 (fun g r => g / (#2 * npi N * r)) gt r_cp) else None;","w_gl := if bSwirl then Some (map2 (fun g r => g / (#2 * npi N)) gt r_cp) else None;","choice of units","longitudinal vorticity not divided by the radius",["C147"]),
("M_Cylinder.v","(x, y + #2 * yc, z).","(x, y + #2 * #90, z).","choice of units","hub height hard-coded in the mirror",["C147"]),
("M_Solver.v","| [a], [r] => [a / sq (#4 * npi N * Omega * r)]","| [a], [r] => [a / (#4 * npi N * Omega * sq r)]","choice of units","tangential convection of the single cylinder made dimensionless (the fixed program: the refutation must fail)",["C147"]),
("M_Line.v","(norm_a <? #q(1,100000)) then Ok VLsing","false then Ok VLsing","choice of units","tolerance on the distance to the hub dropped",["C147"]),
("M_Turbine.v","(w_gt w)));\n                    do _ <- massign (fun t => set_gl t (w_gl w));\n                    massign (fun t => set_Gr t (w_Gr w))\n                | None, None, Some g","(map (fun g => g / norm (t_U0 self)) (w_gt w))));\n                    do _ <- massign (fun t => set_gl t (w_gl w));\n                    massign (fun t => set_Gr t (w_Gr w))\n                | None, None, Some g","choice of units","gamma_t stored divided by the wind speed",["C147"]),
("M_Skewed.v","map (fun t => npi N / #2 + t) (linspace (#0) (#2 * npi N) ntheta).","map (fun t => t) (linspace (#0) (npi N) ntheta).","mirror symmetry","quadrature over half the circumference from theta=0",["C148"]),
("M_Skewed.v","#2 * m * R * ncos N th - #2 * m * r * ncos N psi - #2 * z.","#2 * m * R * ncos N th - #2 * m * r * nsin N psi - #2 * z.","mirror symmetry","sin psi for cos psi in b",["C148"]),
("M_Cylinder.v","(fst u * ncos N psi, fst u * nsin N psi, snd u).","(fst u * nsin N psi, fst u * ncos N psi, snd u).","mirror symmetry","sin and cos of the radial velocity swapped",["C148"]),
("M_Turbine.v","nsign N (snd (fst e_vert_c)) * (yaw_wind t - t_yaw t).","nsign N (snd (fst e_vert_c)) * (yaw_wind t - nabs N (t_yaw t)).","mirror symmetry","skew angle from the absolute yaw angle",["C148"]),
("M_Turbine.v","if sign =? #0 then ac else sign * ac.","ac.","mirror symmetry","direction of the wind loses its sign",["C148"]),
("M_Turbine.v","(nsqrt N (sq x + sq y) <? R * #q(1001,1000)) &&","(nabs N x + y <? R * #q(1001,1000)) && (x <? R) &&","mirror symmetry","wake tube bounded on one side only",["C148"]),
("M_Doublet.v","(d * (x * z * ti50 + m * ti52 - (m * z + x) * ti51),","(d * (x * z * ti50 + m * ti52 - (m * z + nabs N x) * ti51),","mirror symmetry","sideways velocity of the doublet line even in x",["C148"]),
("M_Misc.v","let r := nsqrt N (sq x + sq y) in\n    let r12","let r := nsqrt N (sq (x - #1) + sq y) in\n    let r12","mirror symmetry","self-similar wake off centre",["C148"]),
("M_Helpers.v","(fst xz, fst xz * #0 + vc_hub VC, snd xz)","(fst xz, fst xz * #0, snd xz)","accessors agree","hub height forgotten by fHorz",["C149"]),
("M_Helpers.v","(snd yz * #0, fst yz + vc_hub VC, snd yz)","(snd yz * #0, snd yz + vc_hub VC, fst yz)","accessors agree","y and z swapped by fVert",["C149"]),
("M_Helpers.v","else (r * #0, r + vc_hub VC, r * #0 + z0)","else (r * #0, r, r * #0 + z0)","accessors agree","hub height forgotten by the vertical fRadial",["C149"]),
("M_Helpers.v","List.concat (map (fun z => map (fun x => (x, z)) xs) zs).","List.concat (map (fun x => map (fun z => (x, z)) zs) xs).","accessors agree","indexing='ij'",["C149"]),
("M_RelErr.v","(v - a) / a * #100","(v - a) / v * #100","relative errors","error relative to the model",["C150"]),
("M_RelErr.v","let '(z, x) := if UseRho then (r * ncos N theta, - r * nsin N theta)","let '(z, x) := if UseRho then (r * nsin N theta, - r * ncos N theta)","relative errors","sine and cosine swapped",["C150"]),
("M_RelErr.v","re_models ans ADW itheta (S iModel) Models (upd RE iModel (upd (nth iModel RE []) itheta (re_row VCW ADW)))","re_models ans ADW itheta (S iModel) Models (upd RE iModel (upd (nth iModel RE []) iModel (re_row VCW ADW)))","relative errors","row of the model instead of the direction",["C150"]),
("M_RelErr.v","else Err (EException \"Model not supported\").","else Ok ADW.","relative errors","unknown models count as the data",["C150"]),
("M_RelErr.v","let* u := fCenter (ad_plane AD) in Ok (Some u)","let* u := fCenter (ad_plane AD) in Ok None","relative errors","MatchMidVel not forwarded",["C150"]),
("M_RelErr.v","np_mean (map (fun row => nth j row (nnan N)) M)","np_mean (nth j M [])","relative errors","mean over the distances (axis=1)",["C150"]),
("M_RelErr.v","re_dirs minim AD GP mid Horizontal UseRho rho Models (S itheta) dirs RE","re_dirs minim AD GP mid Horizontal UseRho rho Models itheta dirs RE","relative errors","every direction written to the first row",["C150"]),
("M_Skewed.v","map (fun t => t + npi N / nZ N (Z.of_nat ntheta)) (linspace","map (fun t => t + npi N / #2) (linspace","mirror with swirl","nodes of the longitudinal quadrature start at pi/2 (the fixed program: the refutation must fail)",["C151"]),
("M_Skewed.v","z (nsin N chi) (#0) (ncos N chi)","z (nsin N chi) (#0) (nsin N chi)","mirror with swirl","root vortex along (sin chi, 0, sin chi)",["C151"]),
("M_Line.v","if polar_out then vl_straight_polar Gamma_r r psi z\n","if polar_out then vl_straight_polar (nabs N Gamma_r) r psi z\n","mirror with swirl","(polar components only) circulation in absolute value",[]),
("M_Solver.v","w_Gr := if bSwirl then Some (- (hd (nnan N) G)) else None","w_Gr := if bSwirl then Some (- nabs N (hd (nnan N) G)) else None","mirror with swirl","root vortex from the absolute circulation",["C151"]),
("M_Solver.v","w_gl := if bSwirl then Some (map2 (fun g r => g / (#2 * npi N * r)) gt r_cp) else None","w_gl := if bSwirl then Some (map2 (fun g r => nabs N g / (#2 * npi N * r)) gt r_cp) else None","mirror with swirl","longitudinal vorticity of one sign",["C151"]),
("M_Turbine.v","if Gr =? #0 then Ok u","if nle N Gr (#0) then Ok u","mirror with swirl","root vortex only when positive",["C151"]),
("M_Turbine.v","Ok (if gl =? #0 then None else Some gl)","Ok (if nle N gl (#0) then None else Some gl)","mirror with swirl","longitudinal vorticity only when positive",["C151"]),
("M_Cylinder.v","gamma_l / #2 * R / r * (Ar + Az)","nabs N gamma_l / #2 * R / r * (Ar + Az)","mirror with swirl","absolute longitudinal vorticity",["C151"]),
("M_Solver.v","let bSwirl := Lambda <? #20 in\n    let vk","let bSwirl := nabs N Lambda <? #20 in\n    let vk","mirror with swirl","swirl decided by |Lambda| (the fixed program: the refutation must fail)",["C151"]),
("M_Turbine.v","then Ok (map (svc_longi_u gl (t_R t) m 180 false) Y)","then Ok (map (svc_longi_u gl (t_R t) (nabs N m) 180 false) Y)","mirror with swirl","skew of the longitudinal vorticity in absolute value",[]),
("M_Turbine.v","doublet_line_u (g * sq (t_R t) * npi N) (#0) (ninf N)","doublet_line_u (g * sq (t_R t)) (#0) (ninf N)","point source far away","strength of the doublet line without pi",["C153"]),
("M_Turbine.v","else if String.eqb Model \"VCFF\" then vc_tang_u_doublet g (t_R t) (o_far o) Y","else if String.eqb Model \"VCFF\" then vc_tang_u_doublet g (t_R t) (#2 * o_far o) Y","point source far away","far field from 2 ratioFarField radii on",["C153"]),
("M_Cylinder.v","nsqrt N (sq Rcp + sq z) >? cut * R.","nsqrt N (sq Rcp + sq z) >? cut * sq R.","point source far away","cut-off distance in squared radii",["C153"]),
("M_Cylinder.v","(gamma * sq R * npi N) false in","(gamma * R * npi N) false in","point source far away","doublet strength with R instead of R^2",["C153"]),
("M_Cylinder.v","let '(x, y, z) := p in (x, y + #2 * yc, z).","let '(x, y, z) := p in (x, y + yc, z).","point source far away","image of the hub in the ground instead of under it",["C153"]),
("M_Farm.v","| Ok v => farm_loop h' f' o pts (fadd u v)","| Ok v => farm_loop h' f' o pts v","point source far away","last turbine only",["C153"]),
]
