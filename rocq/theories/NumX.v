(** * NumX: extended reals with numpy's special values.

    Exact arithmetic on finite values; inf/NaN/division by zero behave as in
    numpy (errstate 'warn', i.e. no exception).  Simplifications, part of the
    trusted base: no rounding, no overflow, no signed zero (x/0 takes the sign
    of x). *)
From Coq Require Import Reals ZArith Lra List Bool.
From Verif Require Import Num NumR.
Local Open Scope R_scope.

Inductive X : Type := Fin (r : R) | PInf | MInf | NaN.

Definition xinf_sgn (pos : bool) : X := if pos then PInf else MInf.

Definition xopp (a : X) : X :=
  match a with Fin r => Fin (- r) | PInf => MInf | MInf => PInf | NaN => NaN end.
Definition xadd (a b : X) : X :=
  match a, b with
  | Fin x, Fin y => Fin (x + y)
  | NaN, _ | _, NaN => NaN
  | PInf, MInf | MInf, PInf => NaN
  | PInf, _ | _, PInf => PInf
  | MInf, _ | _, MInf => MInf
  end.
Definition xsub (a b : X) : X :=
  match a, b with
  | Fin x, Fin y => Fin (x - y)
  | _, _ => xadd a (xopp b)
  end.
(** sign of a finite number as an infinity times it *)
Definition xinf_mul (pos : bool) (y : R) : X :=
  if Rltb 0 y then xinf_sgn pos else if Rltb y 0 then xinf_sgn (negb pos) else NaN.
Definition xmul (a b : X) : X :=
  match a, b with
  | Fin x, Fin y => Fin (x * y)
  | NaN, _ | _, NaN => NaN
  | PInf, Fin y | Fin y, PInf => xinf_mul true y
  | MInf, Fin y | Fin y, MInf => xinf_mul false y
  | PInf, PInf | MInf, MInf => PInf
  | PInf, MInf | MInf, PInf => MInf
  end.
Definition xdiv (a b : X) : X :=
  match a, b with
  | Fin x, Fin y => if Reqb y 0 then xinf_mul true x else Fin (x / y)
  | NaN, _ | _, NaN => NaN
  | Fin _, _ => Fin 0
  | PInf, Fin y => if Rltb y 0 then MInf else PInf
  | MInf, Fin y => if Rltb y 0 then PInf else MInf
  | _, _ => NaN
  end.
Definition xabs (a : X) : X :=
  match a with Fin r => Fin (Rabs r) | NaN => NaN | _ => PInf end.
Definition xsqrt (a : X) : X :=
  match a with
  | Fin r => if Rltb r 0 then NaN else Fin (sqrt r)
  | PInf => PInf | MInf => NaN | NaN => NaN end.
Definition xlt (a b : X) : bool :=
  match a, b with
  | Fin x, Fin y => Rltb x y
  | NaN, _ | _, NaN => false
  | PInf, _ => false
  | _, PInf => true
  | _, MInf => false
  | MInf, _ => true
  end.
Definition xle (a b : X) : bool :=
  match a, b with
  | Fin x, Fin y => Rleb x y
  | NaN, _ | _, NaN => false
  | _, PInf => true
  | MInf, _ => true
  | _, _ => false
  end.
Definition xeqb (a b : X) : bool :=
  match a, b with
  | Fin x, Fin y => Reqb x y
  | PInf, PInf => true | MInf, MInf => true | _, _ => false end.
(** x**y, non-integer finite exponent y *)
Definition xpow (a b : X) : X :=
  match a, b with
  | Fin x, Fin y =>
      if Rltb x 0 then NaN
      else if Reqb x 0 then (if Rltb y 0 then PInf else if Rltb 0 y then Fin 0 else Fin 1)
      else Fin (Rpw x y)
  | PInf, Fin y => if Rltb y 0 then Fin 0 else if Rltb 0 y then PInf else Fin 1
  | _, _ => NaN
  end.
Definition xexp (a : X) : X :=
  match a with Fin r => Fin (exp r) | PInf => PInf | MInf => Fin 0 | NaN => NaN end.
Definition xlog (a : X) : X :=
  match a with
  | Fin r => if Rltb r 0 then NaN else if Reqb r 0 then MInf else Fin (ln r)
  | PInf => PInf | _ => NaN end.
Definition xcosh (a : X) : X :=
  match a with Fin r => Fin (cosh r) | NaN => NaN | _ => PInf end.
Definition xcos (a : X) : X := match a with Fin r => Fin (cos r) | _ => NaN end.
Definition xsin (a : X) : X := match a with Fin r => Fin (sin r) | _ => NaN end.
(** at an exact odd multiple of pi/2 the tangent has no value (floats never hit it) *)
Definition xtan (a : X) : X :=
  match a with Fin r => if Reqb (cos r) 0 then NaN else Fin (tan r) | _ => NaN end.
Definition xatan (a : X) : X :=
  match a with Fin r => Fin (atan r) | PInf => Fin (PI/2) | MInf => Fin (-(PI/2)) | NaN => NaN end.
Definition xacos (a : X) : X :=
  match a with
  | Fin r => if (Rltb r (-1) || Rltb 1 r)%bool then NaN else Fin (acos r)
  | _ => NaN end.
(** only finite arguments are used by the model's theorems *)
Definition xatan2 (a b : X) : X :=
  match a, b with Fin y, Fin x => Fin (Ratan2 y x) | _, _ => NaN end.
Definition xsign (a : X) : X :=
  match a with Fin r => Fin (Rsgn r) | PInf => Fin 1 | MInf => Fin (-1) | NaN => NaN end.
Definition xmax (a b : X) : X :=
  match a, b with
  | NaN, _ | _, NaN => NaN
  | Fin x, Fin y => Fin (Rmax x y)
  | PInf, _ | _, PInf => PInf
  | MInf, y => y
  | x, MInf => x
  end.
(** scipy.special.ellipk: finite below 1, inf at 1, NaN above; ellipe: NaN above 1 *)
Definition xellipk (a : X) : X :=
  match a with
  | Fin m => if Rltb m 1 then Fin (Kell m) else if Reqb m 1 then PInf else NaN
  | MInf => Fin 0
  | _ => NaN end.
Definition xellipe (a : X) : X :=
  match a with
  | Fin m => if Rleb m 1 then Fin (Eell m) else NaN
  | MInf => PInf
  | _ => NaN end.

Definition XN : Num := {|
  T := X;
  nZ := fun z => Fin (IZR z);
  nQ := fun p q => Fin (IZR p / IZR (Zpos q));
  nadd := xadd; nsub := xsub; nmul := xmul; ndiv := xdiv; nopp := xopp;
  nabs := xabs; nsqrt := xsqrt; npow := xpow; nexp := xexp; nlog := xlog; ncosh := xcosh;
  ncos := xcos; nsin := xsin; ntan := xtan; natan := xatan; nacos := xacos;
  natan2 := xatan2; nsign := xsign; npi := Fin PI;
  ninf := PInf; nnan := NaN;
  nellipk := xellipk; nellipe := xellipe;
  nlt := xlt; nle := xle; neqb := xeqb; nmax := xmax
|}.

Definition is_fin (a : X) : Prop := exists r, a = Fin r.

(** Guarded operations on finite values. *)
Lemma xdiv_fin x y : y <> 0 -> xdiv (Fin x) (Fin y) = Fin (x / y).
Proof. intros H; simpl. destruct (Reqb_spec y 0); [contradiction|reflexivity]. Qed.
Lemma xsqrt_fin x : 0 <= x -> xsqrt (Fin x) = Fin (sqrt x).
Proof. intros H; simpl. destruct (Rltb_spec x 0); [lra|reflexivity]. Qed.
Lemma xpow_fin x y : 0 < x -> xpow (Fin x) (Fin y) = Fin (Rpw x y).
Proof.
  intros H; simpl. destruct (Rltb_spec x 0); [lra|].
  destruct (Reqb_spec x 0); [lra|reflexivity].
Qed.
Lemma xpow_fin0 x y : 0 <= x -> 0 < y -> xpow (Fin x) (Fin y) = Fin (Rpw x y).
Proof.
  intros H Hy; simpl. destruct (Rltb_spec x 0); [lra|].
  destruct (Reqb_spec x 0); [|reflexivity].
  destruct (Rltb_spec y 0); [lra|]. destruct (Rltb_spec 0 y); [|lra].
  subst; unfold Rpw. destruct (Rlt_dec 0 0); [lra|reflexivity].
Qed.
Lemma xellipk_fin m : m < 1 -> xellipk (Fin m) = Fin (Kell m).
Proof. intros H; simpl. destruct (Rltb_spec m 1); [reflexivity|lra]. Qed.
Lemma xellipe_fin m : m <= 1 -> xellipe (Fin m) = Fin (Eell m).
Proof. intros H; simpl. destruct (Rleb_spec m 1); [reflexivity|lra]. Qed.
Lemma xlog_fin x : 0 < x -> xlog (Fin x) = Fin (ln x).
Proof. intros H; simpl. destruct (Rltb_spec x 0); [lra|]. destruct (Reqb_spec x 0); [lra|reflexivity]. Qed.
Lemma xacos_fin x : -1 <= x <= 1 -> xacos (Fin x) = Fin (acos x).
Proof.
  intros [H1 H2]; simpl. destruct (Rltb_spec x (-1)); [lra|].
  destruct (Rltb_spec 1 x); [lra|reflexivity].
Qed.

(** Algebra of the extended reals that survives inf and NaN. *)
Lemma xadd_comm a b : xadd a b = xadd b a.
Proof. destruct a, b; simpl; try reflexivity; f_equal; lra. Qed.
Lemma xadd_assoc a b c : xadd (xadd a b) c = xadd a (xadd b c).
Proof. destruct a, b, c; simpl; try reflexivity; f_equal; lra. Qed.
Lemma xadd_0_l a : xadd (Fin 0) a = a.
Proof. destruct a; simpl; try reflexivity; f_equal; lra. Qed.
Lemma xadd_0_r a : xadd a (Fin 0) = a.
Proof. destruct a; simpl; try reflexivity; f_equal; lra. Qed.

Lemma Fin_inj x y : Fin x = Fin y -> x = y.
Proof. intros H; injection H; auto. Qed.
