(** * Model of wiz/Solver.py *)
From Coq Require Import ZArith List Bool String.
From Verif Require Import Num.
Import ListNotations.
Local Open Scope num_scope.

Section Solver.
  Context {N : Num}.

  (** Solver.py:19-30, one radius; r_bar_tip may be None *)
  Definition Ct_const_cutoff_pt (CT0 cut : N) (tip : option N) (r : N) : N :=
    let c := if r <? cut then CT0 * r / cut else #1 * CT0 in
    match tip with
    | None => c
    | Some t => if r >? t then CT0 * (#1 - (r - t) / (#1 - t)) else c
    end.
  (** Solver.py:19-30, whole array *)
  Definition Ct_const_cutoff (CT0 cut : N) (tip : option N) (rs : list N) : list N :=
    map (Ct_const_cutoff_pt CT0 cut tip) rs.

  (** Solver.py:33-46, one radius: (a, a') *)
  Definition InductionsFromPrescribedCtCq_ST (Lambda : N) (bSwirl : bool) (r Ct Cq : N) : N * N :=
    let lambda_r := Lambda * r in
    let a := #q(1,2) * (#1 - nsqrt N (#1 - Ct)) in
    let ap := if bSwirl then Cq / (#4 * (#1 - a) * lambda_r) else #0 in
    (a, ap).

  (** Solver.py:58: objective of the bounded minimisation *)
  Definition k_obj (lambda_r Ct k : N) : N :=
    nabs N (k * (#1 + k / (#4 * sq lambda_r)) - Ct).
  (** Solver.py:48-62.  [minim f lo hi] stands for
      scipy.optimize.minimize_scalar(f,bounds=[lo,hi],method='bounded').x *)
  Definition CirculationFromPrescribedCt (minim : (N -> N) -> N -> N -> N)
             (rbar Ct : list N) (Lambda : N) (bSwirl : bool) : list N :=
    if bSwirl then
      map2 (fun r c => if (c >? #0) && (r >? #0)
                       then minim (k_obj (Lambda * r) c) (#0) (#q(18,10)) else #0) rbar Ct
    else Ct.

  (** Solver.py:76,186 *)
  Definition ac : N := #q(34,100).
  (** Solver.py:77,187 *)
  Definition Ct_c : N := #4 * ac * (#1 - ac).
  (** Solver.py:100,240 Spera correction *)
  Definition spera (ct : N) : N := (ct - #4 * sq ac) / (#4 * (#1 - #2 * ac)).
  (** Solver.py:101,103 (same expression as line 40) *)
  Definition mom (ct : N) : N := #q(1,2) * (#1 - nsqrt N (#1 - ct)).

  (** scipy.integrate.cumtrapz(y,x) as called at Solver.py:87, running sum [acc] *)
  Fixpoint cumtrapz_from (acc : N) (y x : list N) : list N :=
    match y, x with
    | y0 :: ((y1 :: _) as y'), x0 :: ((x1 :: _) as x') =>
        let acc' := acc + (x1 - x0) * (y1 + y0) / #2 in
        acc' :: cumtrapz_from acc' y' x'
    | _, _ => []
    end.
  (** scipy.integrate.cumtrapz(y,x) as called at Solver.py:87 *)
  Definition cumtrapz (y x : list N) : list N := cumtrapz_from (#0) y x.

  (** Solver.py:79-81, 125-126: "Safety": overwrites the first entry of the
      caller's array in place (float arrays).  Returns the array as it is afterwards; needs at
      least one entry, and a second one if the first is 0. *)
  Definition safety (f : N) (l : list N) : result (list N) :=
    match l with
    | [] => Err EIndexError
    | a :: l' =>
        if a =? #0 then
          match l' with [] => Err EIndexError | b :: _ => Ok (b * f :: l') end
        else Ok l
    end.

  (** Solver.py:113-116: returned a, a_prime and the dictionary misc *)
  Record cont_out := { co_a : list N; co_ap : list N;
                       co_CtKJ : list N; co_Cteff : list N; co_Ctrot : list N;
                       co_lambda_after : list N (* lambda_r after the call *) }.
  (** Solver.py:65-116 with Cq=None (Cq given: see InductionsFromCirculation_VC_Cont_Cq).  Arrays have equal length. *)
  Definition InductionsFromCirculation_VC_Cont (vr_bar lambda_r k : list N)
             (bSwirl analytical bHigh : bool) : result cont_out :=
    let* lam := safety (#q(1,100)) lambda_r in
    if negb analytical then Err (ENotImplemented "")
    else
      let ap := if bSwirl then map2 (fun k l => k / (#4 * sq l)) k lam else map (fun k => k * #0) k in
      let Ctrot :=
        if bSwirl then
          let y := map2 (fun l_ap r => sq (fst l_ap) * sq (snd l_ap) / r) (map2 pair lam ap) vr_bar in
          rev (#0 :: map (fun v => - #8 * v) (cumtrapz (rev y) (rev vr_bar)))
        else map (fun k => k * #0) k in
      let CtKJ := map2 (fun k a => k * (#1 + a)) k ap in
      let Cteff := map2 (fun a b => a - b) CtKJ Ctrot in
      let a := map (fun ct => if bHigh then (if ct >? Ct_c then spera ct
                                             else if ct <=? Ct_c then mom ct else #0)
                              else mom ct) Cteff in
      Ok {| co_a := a; co_ap := ap; co_CtKJ := CtKJ; co_Cteff := Cteff; co_Ctrot := Ctrot;
            co_lambda_after := lam |}.

  (** Solver.py:105-110: with Cq the returned a_prime is recomputed from a circulation k2 = misc['k_Cq'];
      a and the other outputs are those of Cq=None.  Result: (outputs, misc['k_Cq']).  a_2 (line 107) is never used *)
  Definition InductionsFromCirculation_VC_Cont_Cq (vr_bar lambda_r k Cq : list N)
             (bSwirl analytical bHigh : bool) : result (cont_out * list N) :=
    let* o := InductionsFromCirculation_VC_Cont vr_bar lambda_r k bSwirl analytical bHigh in
    let k2 := map2 (fun cl a => fst cl * snd cl / (#1 - a)) (map2 pair Cq (co_lambda_after o)) (co_a o) in
    Ok ({| co_a := co_a o; co_ap := map2 (fun k l => k / (#4 * sq l)) k2 (co_lambda_after o);
           co_CtKJ := co_CtKJ o; co_Cteff := co_Cteff o; co_Ctrot := co_Ctrot o;
           co_lambda_after := co_lambda_after o |}, k2).

  (** Solver.py:141,273: consecutive differences Gamma_i - Gamma_{i+1}, with Gamma_{n}=0 *)
  Fixpoint gtilde (g : list N) : list N :=
    match g with
    | [] => []
    | [a] => [a - #0]
    | a :: ((b :: _) as g') => (a - b) :: gtilde g'
    end.

  (** Solver.py:149,283: returned gamma_t, gamma_l, Gamma_r and the entries a, a_prime, h, r_cp of misc *)
  Record wake := { w_gt : list N;               (* gamma_t *)
                   w_gl : option (list N);      (* gamma_l, None = Python None *)
                   w_Gr : option N;             (* Gamma_r *)
                   w_a : list N; w_ap : list N; w_h : list N;
                   w_rcp_after : list N         (* caller's r_cp array after the call *) }.
  (** Solver.py:118-149 (gamma_l = 0 and Gamma_r = 0 scalars without swirl) *)
  Definition WakeVorticityFromCirculation_Cont (r_cp Gamma : list N) (R U0 Omega : N)
             (bSwirl analytical bHigh : bool) : result wake :=
    let* r_cp := safety (#q(1,2)) r_cp in
    let k := map (fun g => Omega * g / (npi N * sq U0)) Gamma in
    let vr_bar := map (fun r => r / R) r_cp in
    let lam := map (fun r => Omega * r / U0) r_cp in
    let* ind := InductionsFromCirculation_VC_Cont vr_bar lam k bSwirl analytical bHigh in
    let Vz := map (fun a => U0 * (#1 - #2 * a)) (co_a ind) in
    let h := map2 (fun v ap => v * #2 * npi N / (Omega * (#1 + #2 * ap))) Vz (co_ap ind) in
    let gt := gtilde Gamma in
    Ok {| w_gt := map2 (fun g h => - g / h) gt h;
          w_gl := Some (if bSwirl then map2 (fun g r => g / (#2 * npi N * r)) gt r_cp else [#0]);
          w_Gr := Some (if bSwirl then - (hd (nnan N) Gamma) else #0);
          w_a := co_a ind; w_ap := co_ap ind; w_h := h; w_rcp_after := r_cp |}.

  (** Solver.py:165-166: cylinder radii midway between control points, the last one extrapolated *)
  Fixpoint midpoints (r : list N) : list N :=
    match r with
    | a :: ((b :: r'') as r') =>
        (b + a) / #2 :: (match r'' with
                         | [] => [b + (b - a) / #2]
                         | _ => midpoints r' end)
    | _ => []
    end.
  (** Solver.py:160-166: a single control point gets a cylinder of radius R *)
  Definition default_r_cyl (r_cp : list N) (R : N) : list N :=
    match r_cp with
    | [_] => [R]
    | _ => midpoints r_cp
    end.

  (** Solver.py:198-200: tangential convection, Eq.(26) as coded: the whole denominator is squared *)
  Fixpoint ap_conv (Omega : N) (g rc : list N) : list N :=
    match g, rc with
    | [a], [r] => [a / sq (#4 * npi N * Omega * r)]
    | a :: ((b :: _) as g'), r :: rc' => (a + b) / sq (#4 * npi N * Omega * r) :: ap_conv Omega g' rc'
    | _, _ => []
    end.

  (** Loop state of Solver.py:214-241, going from the tip (i=n-1) to the root:
      [d_gs] gamma_t_bar[i+1:], [d_rl] Ctrot_loc[i+1:], and k_r, lambda_R of i+1. *)
  Record dstate := { d_gs : list N; d_rl : list N; d_next : option (N * N);
                     d_bs : list N (* b[i+1:] *); d_ce : list N (* Cteff[i+1:] *) }.
  (** Solver.py:215-241: one iteration at radius i: input (k_i, lambda_R,i, ap_i, C_i) *)
  Definition dstep (bSwirl bHigh : bool) (q : N * N * N * N) (s : dstate) : dstate :=
    let '(k, lR, ap, C) := q in
    let b := match d_next s with None => #1 | Some _ => #1 + nsum (d_gs s) end in
    let S := match d_next s with
             | None => #1 - C
             | Some (k', _) => sq b - (k - k') * (#1 + ap) end in
    let Crl := match d_next s with
               | None => #0
               | Some (k', lR') => sq (k' / #2) * (#1 / sq lR - #1 / sq lR') end in
    let Ctrot := if bSwirl then nsum (d_rl s) else #0 in
    let Cti := if bSwirl then k * (#1 + k / (#4 * sq lR)) else k in
    let Cteff := Cti - Ctrot in
    let Sbis := #1 - Cteff in
    let g0 := if bSwirl then - b + nsqrt N Sbis else - b + nsqrt N S in
    let g := if bHigh && (Cteff >? Ct_c) then - b + (#1 - #2 * spera Cteff) else g0 in
    {| d_gs := g :: d_gs s; d_rl := Crl :: d_rl s; d_next := Some (k, lR);
       d_bs := b :: d_bs s; d_ce := Cteff :: d_ce s |}.
  (** Solver.py:202-209: initial (empty) state *)
  Definition dinit : dstate := {| d_gs := []; d_rl := []; d_next := None; d_bs := []; d_ce := [] |}.
  (** Solver.py:214: the loop in reversed order *)
  Definition dloop (bSwirl bHigh : bool) (qs : list (N * N * N * N)) : dstate :=
    fold_right (dstep bSwirl bHigh) dinit qs.

  (** np.cumsum as called at Solver.py:250 *)
  Fixpoint cumsum_from (acc : N) (l : list N) : list N :=
    match l with [] => [] | x :: l => let a := acc + x in a :: cumsum_from a l end.
  (** Solver.py:250-251: a_1 = -cumsum(gamma_t_bar[-1::-1]/2); a_1 = a_1[-1::-1] *)
  Definition suffix_a (g : list N) : list N :=
    rev (map (fun x => - x) (cumsum_from (#0) (map (fun x => x / #2) (rev g)))).

  (** Solver.py:154-283.  [r_cyl]=None is the default.  The check of line 171
      calls the un-imported module [warnings].  method other than 'analytical'
      falls through and returns None (not modelled: analytical only).  Ct_KJ_cp (line 181) is computed and never used. *)
  Definition WakeVorticityFromCirculation_Discr (r_cp Gamma : list N) (R U0 Omega nB : N)
             (bSwirl bTanInd_k bHigh : bool) (r_cyl : option (list N)) : result wake :=
    let rc := match r_cyl with None => default_r_cyl r_cp R | Some r => r end in
    match r_cp, rc with
    | [], _ | _, [] => Err EIndexError
    | _, rc0 :: _ =>
    if amax rc <? amax r_cp then Err (ENameError "warnings")
    else if rc0 =? #0 then Err (EException "First cylinder at 0, impossible")
    else
      let G := map (fun g => g * nB) Gamma in
      let k_r := map (fun g => g * Omega / (npi N * sq U0)) G in
      let ap := if bTanInd_k then ap_conv Omega G rc else map (fun g => #0 * g) G in
      let C := map2 (fun g a => g * Omega / (npi N * sq U0) * (#1 + a)) G ap in
      let lR := map (fun r => Omega * r / U0) rc in
      let qs := map2 (fun kl ac => (fst kl, snd kl, fst ac, snd ac))
                     (map2 pair k_r lR) (map2 pair ap C) in
      let st := dloop bSwirl bHigh qs in
      let gbar := d_gs st in
      let Vc := map2 (fun b g => U0 * (b + g / #2)) (d_bs st) gbar in
      let h := map2 (fun v a => #2 * npi N * v / (Omega * (#1 + a))) Vc ap in
      let a := suffix_a gbar in
      let a_prime := if bSwirl then map2 (fun g r => g / (#4 * npi N * Omega * sq r)) G r_cp
                     else map (fun a => a * #0) a in
      let gt := gtilde G in
      Ok {| w_gt := map (fun g => g * U0) gbar;
            w_gl := if bSwirl then Some (map2 (fun g r => g / (#2 * npi N * r)) gt r_cp) else None;
            w_Gr := if bSwirl then Some (- (hd (nnan N) G)) else None;
            w_a := a; w_ap := a_prime; w_h := h; w_rcp_after := r_cp |}
    end.

  (** Solver.py:293-294,303-304 *)
  Definition omega_fix (Omega : N) : N := if Omega =? ninf N then #800 else Omega.
  (** Solver.py:291-299; [minim] as in CirculationFromPrescribedCt *)
  Definition WakeVorticityFromCt (minim : (N -> N) -> N -> N -> N)
             (r Ct : list N) (R U0 Omega0 : N) : result wake :=
    let Omega := omega_fix Omega0 in
    let Lambda := Omega * R / U0 in
    let bSwirl := Lambda <? #20 in
    let vk := CirculationFromPrescribedCt minim (map (fun r => r / R) r) Ct Lambda bSwirl in
    let Gamma := map (fun k => k * npi N * sq U0 / Omega) vk in
    WakeVorticityFromCirculation_Discr r Gamma R U0 Omega (#1) bSwirl true true None.
  (** Solver.py:301-307 *)
  Definition WakeVorticityFromGamma (r Gamma : list N) (R U0 Omega0 : N) : result wake :=
    let Omega := omega_fix Omega0 in
    let Lambda := Omega * R / U0 in
    let bSwirl := Lambda <? #20 in
    WakeVorticityFromCirculation_Discr r Gamma R U0 Omega (#1) bSwirl true true None.
End Solver.
Arguments cont_out : clear implicits.
Arguments wake : clear implicits.
Arguments dstate : clear implicits.
