(** * Model of wiz/examples/tictoc.py: pretty_time *)
From Coq Require Import ZArith QArith Qround String Ascii List Bool.
From Coq Require Import DecimalString DecimalN.
Import ListNotations.
Local Open Scope string_scope.

(** Decimal digits of a natural number: Python str(n), n >= 0, in the formats of tictoc.py:13-36 *)
Definition dec (z : Z) : string := NilZero.string_of_uint (N.to_uint (Z.to_N z)).
(** Padding characters of the formats of tictoc.py:13-36 *)
Fixpoint rep (c : ascii) (n : nat) : string := match n with O => "" | S n => String c (rep c n) end.
(** Left padding with character [c] to width [w] (Python '{:2d}', '{:02d}', '{:4.1f}', tictoc.py:13-36). *)
Definition lpad (c : ascii) (w : nat) (s : string) : string := rep c (w - String.length s) ++ s.
(** tictoc.py:13,17,21,25,29: the format '{:2d}' *)
Definition d2 (z : Z) : string := lpad " " 2 (dec z).      (* '{:2d}'  *)
(** tictoc.py:13,17,21,25,29: the format '{:02d}' *)
Definition d02 (z : Z) : string := lpad "0" 2 (dec z).     (* '{:02d}' *)
(** tictoc.py:32,36: Python rounds the exact value to the nearest tenth, ties to even ('{:.1f}'). *)
Definition tenths (q : Q) : Z :=
  let y := (10 * q)%Q in
  let f := Qfloor y in
  let r := (y - inject_Z f)%Q in
  match Qcompare r (1 # 2) with
  | Lt => f
  | Gt => (f + 1)%Z
  | Eq => if Z.even f then f else (f + 1)%Z
  end.
(** tictoc.py:32,36: the format '{:.1f}' of a non-negative number *)
Definition f1 (q : Q) : string := dec (tenths q / 10) ++ "." ++ dec (tenths q mod 10).

(** tictoc.py:9-30: the comparison a<b of exact numbers *)
Definition Qlt_b (a b : Q) : bool := negb (Qle_bool b a).

(** wiz/examples/tictoc.py:5-38.  A float is a rational number; the arithmetic on
    it is exact here (no rounding of t/60, t*100, ...). *)
Definition pretty_time (t : Q) : string :=
  if Qlt_b t 0 then "------"
  else if Qlt_b t 1 then d2 0 ++ "." ++ d02 (Qfloor (t * 100)) ++ "s"
  else if Qlt_b t 60 then
    let s := Qfloor t in
    let c := Qfloor ((t - inject_Z s) * 100) in
    d2 s ++ "." ++ d02 c ++ "s"
  else if Qlt_b t 3600 then
    d2 (Qfloor (t / 60)) ++ "m" ++ d02 (Qfloor t mod 60) ++ "s"
  else if Qlt_b t 86400 then
    d2 (Qfloor (t / 3600)) ++ "h" ++ d02 (Qfloor (inject_Z (Qfloor t mod 3600) / 60)) ++ "m"
  else if Qlt_b t 8553600 then
    d2 (Qfloor (t / 86400)) ++ "d" ++ d02 (Qfloor (inject_Z (Qfloor t mod 86400) / 3600)) ++ "h"
  else if Qlt_b t 31536000 then
    lpad " " 4 (f1 (t / 2635200)) ++ "mo"            (* 3600*24*30.5   *)
  else f1 (t / 31557600) ++ "y".                      (* 3600*24*365.25 *)
