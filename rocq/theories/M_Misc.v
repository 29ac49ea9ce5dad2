(** * Models of wiz/SelfSimilar.py and wiz/VortexPoint.py *)
From Coq Require Import ZArith List Bool String.
From Verif Require Import Num.
Import ListNotations.
Local Open Scope num_scope.

Section SelfSimilar.
  Context {N : Num}.
  (** SelfSimilar.py:8: default of lambda_ *)
  Definition ss_lambda : N := #q(587,1000).
  (** SelfSimilar.py:8: default of eta *)
  Definition ss_eta : N := #q(132,100).
  (** SelfSimilar.py:8-31, one control point of an array *)
  Definition ss_u (gamma R lambda eta : N) (p : N * N * N) : N :=
    let '(x, y, z) := p in
    let beta := nsqrt N (#2) in
    let alpha := #q(8,9) in
    let ui0 := gamma / #2 in
    let r := nsqrt N (sq x + sq y) in
    let r12 := nsqrt N (lambda * (eta + sq (z / R))) * R in
    let epsilon := r / r12 in
    let FEPS := npow N (#1 / ncosh N (beta * epsilon)) alpha in
    let ui0_x := ui0 * (#1 + z / nsqrt N (sq z + sq R)) in
    if z >? #0 then #0 else ui0_x * FEPS.
End SelfSimilar.

Section Point.
  Context {N : Num}.
  (** VortexPoint.py:9-24 *)
  Definition vp_u (Gamma rcore : N) (bViscous : bool) (cp pv : N * N) : N * N :=
    let d0 := fst cp - fst pv in
    let d1 := snd cp - snd pv in
    let r2 := sq d0 + sq d1 in
    let t0 := - d1 in
    let t1 := d0 in
    if bViscous then
      let k := #1 - nexp N (- r2 / sq rcore) in
      (Gamma * t0 / r2 / (#2 * npi N) * k, Gamma * t1 / r2 / (#2 * npi N) * k)
    else (Gamma * t0 / r2 / (#2 * npi N), Gamma * t1 / r2 / (#2 * npi N)).

  (** VortexPoint.py:48-83: smoothing set up: None = SmoothModel 0 *)
  Definition vps_kernel (SmoothModel KernelOrder : Z)
    : result (option ((N -> N) * (N -> N))) :=   (* (fKernel, fE) *)
    (if SmoothModel =? 0 then Ok None
    else if SmoothModel =? 1 then
      let fE := fun rho2 : N => nexp N (- rho2)%num in
      if KernelOrder =? 2 then Ok (Some ((fun _ => #1), fE))%num
      else if KernelOrder =? 4 then Ok (Some ((fun rho2 => #1 - rho2), fE))%num
      else if KernelOrder =? 6 then
        Ok (Some ((fun rho2 => #1 - #2 * rho2 + sq rho2 / #2), fE))%num
      else if KernelOrder =? 8 then
        Ok (Some ((fun rho2 => #1 - #3 * rho2 + #3 * sq rho2 / #2 - cube rho2 / #6), fE))%num
      else Err (EException "fKernel order not implemented for Majda model")
    else if SmoothModel =? 2 then
      let fE2 := fun rho2 : N => nexp N (- rho2 / #2)%num in
      let fE := fun rho2 : N => nexp N (- rho2)%num in
      if KernelOrder =? 2 then Ok (Some ((fun _ => #1), fE))%num
      else if KernelOrder =? 4 then Ok (Some ((fun rho2 => #1 - #q(1,2) * rho2), fE2))%num
      else if KernelOrder =? 6 then
        Ok (Some ((fun rho2 => #1 - rho2 + #q(1,8) * sq rho2), fE2))%num
      else if KernelOrder =? 8 then
        Ok (Some ((fun rho2 => #1 - #q(3,2) * rho2 + #q(3,8) * sq rho2 - #q(1,48) * cube rho2), fE2))%num
      else if KernelOrder =? 10 then
        Ok (Some ((fun rho2 => #1 - #2 * rho2 + #q(3,4) * sq rho2 - #q(1,12) * cube rho2
                               + #q(1,384) * pow4 rho2), fE2))%num
      else Err (EException "Kernel order not implemented for Gaussian2")
    else Err (EException "Unknown smooth model"))%Z.

  (** VortexPoint.py:27,91,104,54: one vortex: row of XV, circulation, SmoothParam (always given: without
      it models 1 and 2 raise TypeError) *)
  Record vortex := { vpos : list N; vG : N; vs : N }.

  (** VortexPoint.py:92: numpy row subtraction x0 - xv with broadcasting of length-1 rows *)
  Definition brow_sub (a b : list N) : result (list N) :=
    if Nat.eqb (List.length a) (List.length b) then Ok (map2 (fun x y => x - y) a b)
    else match a, b with
         | [x], _ => Ok (map (fun y => x - y) b)
         | _, [y] => Ok (map (fun x => x - y) a)
         | _, _ => Err EValueError
         end.

  (** VortexPoint.py:91-114: contribution of one vortex to one control point *)
  Definition vps_one (ker : option ((N -> N) * (N -> N))) (KernelOrder : Z) (ndim : nat)
             (cp : list N) (v : vortex) : result (option (list N)) :=
    let* d := brow_sub cp (vpos v) in
    match d with
    | d0 :: d1 :: _ =>
        let r2 := d0 * d0 + d1 * d1 in
        if r2 <? #q(1,1000000000000000) then Ok None      (* pass: nothing is added *)
        else
          let t := if Nat.eqb ndim 2 then [- d1; d0] else [- d1; d0; #0] in
          let w :=
            match ker with
            | None => map (fun t => vG v / (#2 * npi N) * t / r2) t
            | Some (fK, fE) =>
                if (KernelOrder =? 0)%Z
                then map (fun t => vG v / (#2 * npi N) * t / r2) t
                else
                  let rho2 := r2 / sq (vs v) in
                  let E := fE rho2 in
                  let Qm := fK rho2 in
                  map (fun t => vG v / (#2 * npi N) * t * (#1 - Qm * E) / r2) t
            end in
          if Nat.eqb (List.length w) ndim then Ok (Some w) else Err EValueError
    | _ => Err EIndexError
    end.
  (** VortexPoint.py:90-114: the loop over the vortices for one control point *)
  Fixpoint vps_row (ker : option ((N -> N) * (N -> N))) (KernelOrder : Z) (ndim : nat)
           (cp : list N) (vs : list vortex) (acc : list N) : result (list N) :=
    match vs with
    | [] => Ok acc
    | v :: vs =>
        let* w := vps_one ker KernelOrder ndim cp v in
        vps_row ker KernelOrder ndim cp vs
          (match w with None => acc | Some w => map2 (fun a b => a + b) acc w end)
    end.
  (** VortexPoint.py:41-44.  The dimension test reads XV.shape[1] twice: [ndimCP] is the number of
      columns of CP, which the code never looks at *)
  Definition vps_dim_ok (ndimCP ndim : nat) : bool :=
    let ndimCP' := ndim in Nat.eqb ndim ndimCP'.
  (** VortexPoint.py:27-117 *)
  Definition vps_u (SmoothModel KernelOrder : Z) (ndimCP ndim : nat)
             (cps : list (list N)) (vs : list vortex) : result (list (list N)) :=
    if negb (vps_dim_ok ndimCP ndim)
    then Err (EException "Your control points and vortex point do not have the same dimension.")
    else
      let* ker := vps_kernel SmoothModel KernelOrder in
      mapM (fun cp => vps_row ker KernelOrder ndim cp vs (repeat (#0) ndim)) cps.
End Point.
Arguments vortex : clear implicits.
