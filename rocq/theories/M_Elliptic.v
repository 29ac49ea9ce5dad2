(** * Model of wiz/elliptic.py *)
From Coq Require Import ZArith List.
From Verif Require Import Num.
Import ListNotations.
Local Open Scope num_scope.

Section Elliptic.
  Context {N : Num}.
  Notation T3 := (N * N * N)%type.

  (** elliptic.py:18  RES = 1.e-12 *)
  Definition RES : N := #q(1, 1000000000000).
  (** elliptic.py:19  ITMAX = 20 *)
  Definition ITMAX : nat := 20.

  (** elliptic.py:29,74  lambda_ = (xo*yo)**0.5 + (xo*zo)**0.5 + (yo*zo)**0.5
      ([**0.5] is the square root) *)
  Definition lam3 (x y z : N) : N :=
    nsqrt N (x * y) + nsqrt N (x * z) + nsqrt N (y * z).

  (** elliptic.py:30,34-48: the value RF of one iteration *)
  Definition rf_val (p : T3) : N :=
    let '(xo, yo, zo) := p in
    let mu := (xo + yo + zo) / #3 in
    let X := #1 - xo / mu in
    let Y := #1 - yo / mu in
    let Z := #1 - zo / mu in
    let X2 := sq X in let X3 := X2 * X in
    let Y2 := sq Y in let Y3 := Y2 * Y in
    let Z2 := sq Z in let Z3 := Z2 * Z in
    let s1 := (X2 + Y2 + Z2) / #4 in
    let s2 := (X3 + Y3 + Z3) / #6 in
    let s12 := sq s1 in
    let s13 := s12 * s1 in
    let r := #q(5,26) * s13 + #q(3,26) * sq s2 in
    npow N mu (#q(-1,2)) * (#1 + s1 / #5 + s2 / #7 + s12 / #6 + #q(3,11) * s1 * s2 + r).

  (** elliptic.py:29,31-33 *)
  Definition rf_next (p : T3) : T3 :=
    let '(xo, yo, zo) := p in
    let l := lam3 xo yo zo in
    ((xo + l) / #4, (yo + l) / #4, (zo + l) / #4).

  (** elliptic.py:49,112,143  res = np.amax(np.abs(RF-RFo)) over the whole array:
      the stopping test couples all points of the array *)
  Definition resid (a b : list N) : N := amax (map2 (fun x y => nabs N (x - y)) a b).

  (** elliptic.py:28-54, the while loop; [fuel] = ITMAX - nIt.  The loops are written for an arbitrary
      tolerance [tol] and iteration limit; the code is the instance RES, ITMAX (below) *)
  Fixpoint rf_loop (tol : N) (fuel : nat) (res : N) (st : list T3) (RFo : list N) : list N :=
    match fuel with
    | O => RFo
    | S fuel =>
        if res >? tol then
          let RF := map rf_val st in
          rf_loop tol fuel (resid RF RFo) (map rf_next st) RF
        else RFo
    end.
  (** elliptic.py:21-55 *)
  Definition RF_tol (tol : N) (itmax : nat) (y : list N) : list N :=
    rf_loop tol itmax (#1) (map (fun y => (#0, y, #1)) y) (map (fun _ => #0) y).

  (** elliptic.py:135-142: RC, one iteration *)
  Definition rc_val (p : N * N) : N :=
    let '(xo, yo) := p in
    let mu := (xo + #2 * yo) / #3 in
    let s := (yo - xo) / (#3 * mu) in
    let s2 := sq s in let s3 := s2 * s in let s4 := s3 * s in
    let s5 := s4 * s in let s6 := s5 * s in
    npow N mu (#q(-1,2)) *
      (#1 + #q(3,10) * s2 + s3 / #7 + #q(3,8) * s4 + #q(9,22) * s5 + #q(159,208) * s6).
  (** elliptic.py:132-134 *)
  Definition rc_next (p : N * N) : N * N :=
    let '(xo, yo) := p in
    let l := #2 * nsqrt N (xo * yo) + yo in
    ((xo + l) / #4, (yo + l) / #4).
  (** elliptic.py:131-147 *)
  Fixpoint rc_loop (tol : N) (fuel : nat) (res : N) (st : list (N * N)) (RCo : list N) : list N :=
    match fuel with
    | O => RCo
    | S fuel =>
        if res >? tol then
          let RC := map rc_val st in
          rc_loop tol fuel (resid RC RCo) (map rc_next st) RC
        else RCo
    end.
  (** elliptic.py:121-148 *)
  Definition RC_tol (tol : N) (itmax : nat) (xy : list (N * N)) : list N :=
    rc_loop tol itmax (#1) xy (map (fun _ => #0) xy).

  (** elliptic.py:107-108: the arguments of the RC term, state (x,y,z,rho) *)
  Definition rj_alfa_bet (p : T3 * N) : N * N :=
    let '((xo, yo, zo), rho) := p in
    let l := lam3 xo yo zo in
    (sq (rho * (nsqrt N xo + nsqrt N yo + nsqrt N zo) + nsqrt N (xo * yo * zo)),
     rho * sq (rho + l)).
  (** elliptic.py:74,76-79 *)
  Definition rj_next (p : T3 * N) : T3 * N :=
    let '((xo, yo, zo), rho) := p in
    let l := lam3 xo yo zo in
    (((xo + l) / #4, (yo + l) / #4, (zo + l) / #4), (rho + l) / #4).
  (** elliptic.py:109-110: 4**-n *)
  Definition inv4 (n : nat) : N := nQ N 1 (Z.to_pos (4 ^ Z.of_nat n)).
  (** elliptic.py:75,80-106,110: rhs2 of iteration nIt *)
  Definition rj_rhs2 (nIt : nat) (p : T3 * N) : N :=
    let '((xo, yo, zo), rhoo) := p in
    let mu := (xo + yo + zo + #2 * rhoo) / #5 in
    let X := #1 - xo / mu in
    let Y := #1 - yo / mu in
    let Z := #1 - zo / mu in
    let RHO := #1 - rhoo / mu in
    let X2 := sq X in let X3 := X2 * X in let X4 := X3 * X in let X5 := X4 * X in
    let Y2 := sq Y in let Y3 := Y2 * Y in let Y4 := Y3 * Y in let Y5 := Y4 * Y in
    let Z2 := sq Z in let Z3 := Z2 * Z in let Z4 := Z3 * Z in let Z5 := Z4 * Z in
    let RHO2 := sq RHO in let RHO3 := RHO2 * RHO in
    let RHO4 := RHO3 * RHO in let RHO5 := RHO4 * RHO in
    let s1 := (X2 + Y2 + Z2 + #2 * RHO2) / #4 in
    let s2 := (X3 + Y3 + Z3 + #2 * RHO3) / #6 in
    let s3 := (X4 + Y4 + Z4 + #2 * RHO4) / #8 in
    let s4 := (X5 + Y5 + Z5 + #2 * RHO5) / #10 in
    let s12 := s1 * s1 in
    let s13 := s12 * s1 in
    let r := #q(-1,10) * s13 + #q(3,10) * sq s2 + #q(3,5) * s1 * s3 in
    (inv4 (S nIt) * npow N mu (#q(-3,2))) *
      (#1 + #q(3,7) * s1 + s2 / #3 + #q(3,22) * s12 + #q(3,11) * s3
       + #q(3,13) * (s1 * s2 + s4) + r).
  (** elliptic.py:109: rhs1 = rhs1 + 3*4**-nIt*RC(alfa,bet), RC on the whole array *)
  Definition rj_rhs1 (tol : N) (itmax : nat) (nIt : nat) (st : list (T3 * N)) (rhs1 : list N) : list N :=
    map2 (fun a rc => a + #3 * inv4 nIt * rc) rhs1 (RC_tol tol itmax (map rj_alfa_bet st)).
  (** elliptic.py:73-118; nIt = ITMAX - fuel *)
  Fixpoint rj_loop (tol : N) (itmax fuel : nat) (nIt : nat) (res : N) (st : list (T3 * N))
           (rhs1 RJo : list N) : list N :=
    match fuel with
    | O => RJo
    | S fuel =>
        if res >? tol then
          let rhs1' := rj_rhs1 tol itmax nIt st rhs1 in
          let RJ := map2 (fun a b => a + b) rhs1' (map (rj_rhs2 nIt) st) in
          rj_loop tol itmax fuel (S nIt) (resid RJ RJo) (map rj_next st) rhs1' RJ
        else RJo
    end.
  (** elliptic.py:56-120: only the entries with rho > 0 are computed, the others stay inf *)
  Definition RJ_tol (tol : N) (itmax : nat) (yr : list (N * N)) : list N :=
    let b1 := map (fun p => snd p >? #0) yr in
    let sel := gather b1 (map (fun p => ((#0, fst p, #1), snd p)) yr) in
    let z0 := map (fun _ => #0) sel in
    scatter b1 (rj_loop tol itmax itmax 0 (#1) sel z0 z0) (map (fun _ => ninf N) yr).

  (** elliptic.py:151-159.  The pair list is zip(n,m) (equal shapes, which all
      callers in the package satisfy; shapes are flattened) *)
  Definition Pi_tol (tol : N) (itmax : nat) (nm : list (N * N)) : list N :=
    match nm with
    | [] => []
    | _ =>
        let RF := RF_tol tol itmax (map (fun p => #1 - snd p) nm) in
        let RJ := RJ_tol tol itmax (map (fun p => (#1 - snd p, #1 - fst p)) nm) in
        map2 (fun rf q => rf + q) RF
             (map2 (fun p rj => #q(1,3) * fst p * rj) nm RJ)
    end.
  (** ** The code: tolerance RES, at most ITMAX iterations (elliptic.py:18-19) *)
  (** elliptic.py:21-55 with RES and ITMAX *)
  Definition ellipticRF := RF_tol RES ITMAX.
  (** elliptic.py:121-148 with RES and ITMAX *)
  Definition ellipticRC := RC_tol RES ITMAX.
  (** elliptic.py:56-120 with RES and ITMAX *)
  Definition ellipticRJ := RJ_tol RES ITMAX.
  (** elliptic.py:9-159 *)
  Definition ellipticPiCarlson := Pi_tol RES ITMAX.
End Elliptic.
