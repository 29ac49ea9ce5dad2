(** * Model of wiz/VortexLine.py *)
From Coq Require Import ZArith List String Bool.
From Verif Require Import Num.
Import ListNotations.
Local Open Scope num_scope.

Section Line.
  Context {N : Num}.

  (** Return value of vl_semiinf_u: at a singularity it is the 3x1 array
      [[0],[0],[0]] (VortexLine.py:26), otherwise the 1-d array of 3 numbers. *)
  Inductive vlout := VLsing | VLvec (ux uy uz : N).

  (** VortexLine.py:26,60-61: the three numbers the callers unpack *)
  Definition vl_vec (o : vlout) : N * N * N :=
    match o with VLsing => (#0, #0, #0) | VLvec a b c => (a, b, c) end.

  (** VortexLine.py:16-61.  visc_model is an integer; the core models 1-4 read
      the undefined names xb,yb,zb (VortexLine.py:34,42,47,52). *)
  Definition vl_semiinf_u (xa ya za xe ye ze Gamma : N) (visc_model : Z) (t : N)
    : result vlout :=
    let norm_a := nsqrt N (sq xa + sq ya + sq za) in
    let denominator := norm_a * (norm_a - (xa * xe + ya * ye + za * ze)) in
    let c0 := ye * za - ze * ya in
    let c1 := ze * xa - xe * za in
    let c2 := xe * ya - ye * xa in
    if orb (denominator <? #q(1,1000000000000)) (norm_a <? #q(1,100000)) then Ok VLsing
    else
      let fin den :=
        let Kv := Gamma * #1 / #4 / npi N / den in
        Ok (VLvec (Kv * c0) (Kv * c1) (Kv * c2)) in
      if (1 <=? visc_model)%Z && (visc_model <=? 4)%Z then Err (ENameError "xb")
      else if (visc_model =? 5)%Z then fin (denominator + t)
      else fin denominator.

  (** VortexLine.py:63-87, one control point, polar_out=True: (u_r,u_psi,u_z) *)
  Definition vl_straight_polar (Gamma_r : N) (r psi z : N) : N * N * N :=
    if Gamma_r =? #0 then (r * #0, r * #0, r * #0)
    else
      let u_psi := Gamma_r / (#4 * npi N * r) * (#1 + z / nsqrt N (sq r + sq z)) in
      (#0, u_psi, #0).
  (** VortexLine.py:63-91, one control point, polar_out=False: (u_x,u_y,u_z) *)
  Definition vl_straight_cart_of_polar (Gamma_r : N) (r psi z : N) : N * N * N :=
    if Gamma_r =? #0 then (r * #0, r * #0, r * #0)
    else
      let u_psi := Gamma_r / (#4 * npi N * r) * (#1 + z / nsqrt N (sq r + sq z)) in
      (- nsin N psi * u_psi, ncos N psi * u_psi, #0).
  (** VortexLine.py:63-91 *)
  Definition vl_semiinf_straight_u_polar (Gamma_r : N) (polar_out : bool) (r psi z : N)
    : N * N * N :=
    if polar_out then vl_straight_polar Gamma_r r psi z
    else vl_straight_cart_of_polar Gamma_r r psi z.
  (** VortexLine.py:93-96, one control point *)
  Definition vl_semiinf_straight_u (Gamma_r : N) (polar_out : bool) (p : N * N * N)
    : N * N * N :=
    let '(x, y, z) := p in
    vl_semiinf_straight_u_polar Gamma_r polar_out (nsqrt N (sq x + sq y)) (natan2 N y x) z.
End Line.
Arguments vlout : clear implicits.
