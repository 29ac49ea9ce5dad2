(** * Model of wiz/VortexRing.py *)
From Coq Require Import ZArith List Bool String.
From Verif Require Import Num M_Cylinder.
Import ListNotations.
Local Open Scope num_scope.

Section Ring.
  Context {N : Num}.
  Notation pt := (N * N * N)%type.

  (** VortexRing.py:16-35, one point (r,z) *)
  Definition ring_u_polar_singular (Gamma r0 : N) (p : N * N) : N * N :=
    let '(r, z) := p in
    let k2 := #4 * r * r0 / (sq (r + r0) + sq z) in
    let k := nsqrt N k2 in
    let K := nellipk N k2 in
    let E := nellipe N k2 in
    let fact := Gamma / (#4 * npi N * r0) * k in
    let A := (#2 - k2) / (#2 - #2 * k2) in
    let B := r0 * k2 / (#2 * r * (#1 - k2)) in
    (fact * z / r0 * npow N (r0 / r) (#q(3,2)) * (A * E - K),
     fact * npow N (r0 / r) (#q(1,2)) * ((B - A) * E + K)).

  (** VortexRing.py:37-52, one point *)
  Definition ring_u_polar_singularb (Gamma r0 : N) (p : N * N) : N * N :=
    let '(r, z) := p in
    let a := nsqrt N (sq (r + r0) + sq z) in
    let m := #4 * r * r0 / sq a in
    let A := sq z + sq r + sq r0 in
    let B := - #2 * r * r0 in
    let I1 := #4 / a * nellipk N m in
    let I2 := #4 / cube a * nellipe N m / (#1 - m) in
    (Gamma / (#4 * npi N) * r0 * z / B * (I1 - A * I2),
     Gamma / (#4 * npi N) * r0 * ((r0 + r * A / B) * I2 - r / B * I1)).

  (** VortexRing.py:60  EPSILON = 1e-07 *)
  Definition EPSR : N := #q(1,10000000).

  (** VortexRing.py:73-96: value and mask on the neighbourhood of the ring.
      An unknown reg_method leaves [Ir] unbound *)
  Definition ring_near (Gamma r0 eps : N) (reg : string) (p : N * N)
    : result (bool * (N * N)) :=
    let '(r, z) := p in
    if eps =? #0 then
      Ok ((nabs N (r - r0) <? EPSR * r0) && (nabs N z <? EPSR), (#0, Gamma / (#4 * r0)))
    else
      let rho := nsqrt N (sq (r - r0) + sq z) in
      if String.eqb reg "Saffman" then
        Ok (rho <? eps / #2,
            (#0, Gamma / (#4 * npi N * r0) * (nlog N (#16 * r0 / eps) - #q(1,4))))
      else if String.eqb reg "linear" then
        let uzp := snd (ring_u_polar_singular (- #1) (#1) (r0 + eps / #2, #0)) in
        let uzm := snd (ring_u_polar_singular (- #1) (#1) (r0 - eps / #2, #0)) in
        Ok (rho <? eps / #2, (#0, uzp + (uzm - uzp) * (rho / eps / #2)))
      else Err (EUnboundLocal "Ir").

  (** VortexRing.py:54-105, one point (all array operations are elementwise) *)
  Definition ring_u_polar (Gamma r0 z0 eps : N) (reg : string) (p : N * N) : result (N * N) :=
    let '(r, z') := p in
    let z := z' - z0 in
    let Iz := r <? EPSR * r0 in
    let axis := (#0, Gamma / (#2 * r0) * (#1 / npow N (#1 + sq (z / r0)) (#q(3,2)))) in
    let* near := ring_near Gamma r0 eps reg (r, z) in
    let '(Ir, nv) := near in
    Ok (if Ir then nv else if Iz then axis else ring_u_polar_singular Gamma r0 (r, z)).

  (** VortexRing.py:108-179, one point, polar_out=True *)
  Definition ring_u_pol (Gamma R eps : N) (p : pt) : N * N :=
    let '(x, y, z) := p in
    let r := nsqrt N (sq x + sq y) in
    let Iz := r <? EPSR * R in
    let Ir := (nabs N (r - R) <? EPSR * R) && (nabs N z <? EPSR) in
    if Ir then
      (#0, if eps =? #0 then Gamma / (#4 * R)
           else Gamma / (#4 * npi N * R) * (nlog N (#8 * R / eps) - #q(1,4)))
    else if Iz then
      (#0, Gamma / (#2 * R) * (#1 / npow N (#1 + sq (z / R)) (#q(3,2))))
    else
      let a := nsqrt N (sq (r + R) + sq z) in
      let m := #4 * r * R / sq a in
      let A := sq z + sq r + sq R in
      let B := - #2 * r * R in
      let K := nellipk N m in
      let E := nellipe N m in
      let I1 := #4 / a * K in
      let I2 := #4 / cube a * E / (#1 - m) in
      (Gamma / (#4 * npi N) * R * (z / B * (I1 - A * I2)),
       Gamma / (#4 * npi N) * R * ((R + r * A / B) * I2 - r / B * I1)).
  (** VortexRing.py:108-184, one point, polar_out=False *)
  Definition ring_u (Gamma R eps : N) (p : pt) : pt :=
    cart_of_polar2 p (ring_u_pol Gamma R eps p).

  (** VortexRing.py:204: a ring (Gamma, R, centre) *)
  Definition ring : Type := N * N * pt.
  (** VortexRing.py:211-220, one control point, polar_out=False *)
  Definition rings_u (eps : N) (rings : list ring) (p : pt) : pt :=
    fold_left (fun u rg =>
      let '(G, R, c) := rg in
      if nabs N G >? #0 then vadd u (ring_u G R eps (shift c p)) else u)
      rings (#0, #0, #0).
  (** VortexRing.py:202-209, one control point, polar_out=True *)
  Definition rings_u_pol (eps : N) (rings : list ring) (p : pt) : N * N :=
    fold_left (fun u rg =>
      let '(G, R, c) := rg in
      if nabs N G >? #0
      then let v := ring_u_pol G R eps (shift c p) in (fst u + fst v, snd u + snd v) else u)
      rings (#0, #0).
End Ring.
