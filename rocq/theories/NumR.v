(** * NumR: exact real instance of [Num]. *)
From Coq Require Import Reals ZArith Lra List Bool.
From Coquelicot Require Import Coquelicot.
From Verif Require Import Num.
Local Open Scope R_scope.

Definition Rltb (x y : R) : bool := if Rlt_dec x y then true else false.
Definition Rleb (x y : R) : bool := if Rle_dec x y then true else false.
Definition Reqb (x y : R) : bool := if Req_EM_T x y then true else false.

(** Complete elliptic integrals (the documented meaning of
    scipy.special.ellipk / ellipe, parameter m = k^2). *)
Definition Kell (m : R) : R := RInt (fun t => / sqrt (1 - m * (sin t * sin t))) 0 (PI/2).
Definition Eell (m : R) : R := RInt (fun t => sqrt (1 - m * (sin t * sin t))) 0 (PI/2).

(** Principal value of the polar angle, in (-pi,pi]; arctan2(0,0)=0. *)
Definition Ratan2 (y x : R) : R :=
  if Req_EM_T (x * x + y * y) 0 then 0
  else if Rlt_dec y 0 then - acos (x / sqrt (x * x + y * y))
       else acos (x / sqrt (x * x + y * y)).

Definition Rsgn (x : R) : R := if Rlt_dec 0 x then 1 else if Rlt_dec x 0 then -1 else 0.

(** x**y for x>=0 (0**y = 0, y>0). Negative bases are NaN in numpy (see NumX). *)
Definition Rpw (x y : R) : R := if Rlt_dec 0 x then Rpower x y else 0.

Definition RN : Num := {|
  T := R;
  nZ := IZR;
  nQ := fun p q => IZR p / IZR (Zpos q);
  nadd := Rplus; nsub := Rminus; nmul := Rmult; ndiv := Rdiv; nopp := Ropp;
  nabs := Rabs; nsqrt := sqrt; npow := Rpw; nexp := exp; nlog := ln; ncosh := cosh;
  ncos := cos; nsin := sin; ntan := tan; natan := atan; nacos := acos;
  natan2 := Ratan2; nsign := Rsgn; npi := PI;
  ninf := 0; nnan := 0;   (* not representable: see NumX for inf/NaN *)
  nellipk := Kell; nellipe := Eell;
  nlt := Rltb; nle := Rleb; neqb := Reqb; nmax := Rmax
|}.

Lemma Rltb_true x y : Rltb x y = true <-> x < y.
Proof. unfold Rltb; destruct (Rlt_dec x y); split; intros; try easy; lra. Qed.
Lemma Rltb_false x y : Rltb x y = false <-> y <= x.
Proof. unfold Rltb; destruct (Rlt_dec x y); split; intros; try easy; lra. Qed.
Lemma Rleb_true x y : Rleb x y = true <-> x <= y.
Proof. unfold Rleb; destruct (Rle_dec x y); split; intros; try easy; lra. Qed.
Lemma Rleb_false x y : Rleb x y = false <-> y < x.
Proof. unfold Rleb; destruct (Rle_dec x y); split; intros; try easy; lra. Qed.
Lemma Reqb_true x y : Reqb x y = true <-> x = y.
Proof. unfold Reqb; destruct (Req_EM_T x y); split; intros; try easy. Qed.
Lemma Reqb_false x y : Reqb x y = false <-> x <> y.
Proof. unfold Reqb; destruct (Req_EM_T x y); split; intros; try easy. Qed.

Lemma Rltb_spec x y : reflect (x < y) (Rltb x y).
Proof. unfold Rltb; destruct (Rlt_dec x y); constructor; assumption. Qed.
Lemma Rleb_spec x y : reflect (x <= y) (Rleb x y).
Proof. unfold Rleb; destruct (Rle_dec x y); constructor; assumption. Qed.
Lemma Reqb_spec x y : reflect (x = y) (Reqb x y).
Proof. unfold Reqb; destruct (Req_EM_T x y); constructor; assumption. Qed.

Lemma Rpw_half x : 0 <= x -> Rpw x (1/2) = sqrt x.
Proof.
  intros H; unfold Rpw; destruct (Rlt_dec 0 x).
  - replace (1/2) with (/2) by lra. apply Rpower_sqrt; assumption.
  - replace x with 0 by lra. symmetry; apply sqrt_0.
Qed.
Lemma Rpw_pos x y : 0 < x -> Rpw x y = Rpower x y.
Proof. intros; unfold Rpw; destruct (Rlt_dec 0 x); [reflexivity|lra]. Qed.
Lemma Rpw_gt0 x y : 0 < x -> 0 < Rpw x y.
Proof. intros; rewrite Rpw_pos by assumption; unfold Rpower; apply exp_pos. Qed.
Lemma Rpw_3half x : 0 <= x -> Rpw x (3/2) = x * sqrt x.
Proof.
  intros H; unfold Rpw; destruct (Rlt_dec 0 x).
  - replace (3/2) with (1 + /2) by lra. rewrite Rpower_plus, Rpower_1, Rpower_sqrt; auto.
  - replace x with 0 by lra. lra.
Qed.
Lemma Rpw_mhalf x : 0 < x -> Rpw x (-1/2) = / sqrt x.
Proof.
  intros H; rewrite Rpw_pos by assumption.
  replace (-1/2) with (-(/2)) by lra. rewrite Rpower_Ropp, Rpower_sqrt; auto.
Qed.
Lemma Rpw_m3half x : 0 < x -> Rpw x (-3/2) = / (x * sqrt x).
Proof.
  intros H; rewrite Rpw_pos by assumption.
  replace (-3/2) with (-(1+/2)) by lra.
  rewrite Rpower_Ropp, Rpower_plus, Rpower_1, Rpower_sqrt; auto.
Qed.
