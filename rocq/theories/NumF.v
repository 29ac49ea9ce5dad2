(** * NumF: binary64 arithmetic.

    The carrier is Flocq's binary64 (signed zeros, infinities, one NaN).  Addition, subtraction, multiplication, division and square root are those of
    IEEE 754 in round-to-nearest-even mode; decimal literals are correctly rounded; comparisons are those of IEEE 754.  The functions of the mathematical
    library (sin, arccos, ellipk ...) are parameters: nothing is assumed about them unless a theorem says so.
    Simplifications, part of the trusted base: one NaN (no payload), no fused multiply-add, x**2 is x*x, dot products are summed from left to right. *)
From Coq Require Import Reals ZArith Lra Lia List Bool.
From Flocq Require Import Core Relative Plus_error BinarySingleNaN.
From Verif Require Import Num.
Local Open Scope R_scope.

Definition F : Type := binary_float 53 1024.
Definition plt : Prec_lt_emax 53 1024 := eq_refl.
Definition pgt : Prec_gt_0 53 := eq_refl.
Definition bfadd (a b : F) : F := @Bplus 53 1024 pgt plt mode_NE a b.
Definition bfsub (a b : F) : F := @Bminus 53 1024 pgt plt mode_NE a b.
Definition bfmul (a b : F) : F := @Bmult 53 1024 pgt plt mode_NE a b.
Definition bfdiv (a b : F) : F := @Bdiv 53 1024 pgt plt mode_NE a b.
Definition bfsqrt (a : F) : F := @Bsqrt 53 1024 pgt plt mode_NE a.
(** m * 2^e, rounded *)
Definition fme (m e : Z) : F := binary_normalize 53 1024 pgt plt mode_NE m e false.
Definition fone : F := fme 1 0.
Definition fzero64 : F := B754_zero false.
Definition fnan : F := B754_nan.
Definition fsign (a : F) : F :=
  match a with B754_nan => B754_nan | B754_zero _ => fzero64 | B754_infinity s | B754_finite s _ _ _ => if s then Bopp fone else fone end.
Definition fmaxi (a b : F) : F := match a, b with B754_nan, _ | _, B754_nan => B754_nan | _, _ => if Bltb a b then b else a end.
(** the functions of the mathematical library *)
Record mlib : Type := {
  l_pow : F -> F -> F; l_exp : F -> F; l_log : F -> F; l_cosh : F -> F; l_cos : F -> F; l_sin : F -> F; l_tan : F -> F; l_atan : F -> F; l_acos : F -> F;
  l_atan2 : F -> F -> F; l_ellipk : F -> F; l_ellipe : F -> F }.
(** np.pi is the binary64 number next to pi *)
Definition FN (L : mlib) : Num := {|
  T := F;
  nZ := fun z => fme z 0;
  nQ := fun p q => bfdiv (fme p 0) (fme (Zpos q) 0);
  nadd := bfadd; nsub := bfsub; nmul := bfmul; ndiv := bfdiv; nopp := @Bopp 53 1024; nabs := @Babs 53 1024; nsqrt := bfsqrt;
  npow := l_pow L; nexp := l_exp L; nlog := l_log L; ncosh := l_cosh L; ncos := l_cos L; nsin := l_sin L; ntan := l_tan L; natan := l_atan L; nacos := l_acos L;
  natan2 := l_atan2 L; nsign := fsign; npi := fme 884279719003555 (-48);
  ninf := B754_infinity false; nnan := fnan;
  nellipk := l_ellipk L; nellipe := l_ellipe L;
  nlt := @Bltb 53 1024; nle := @Bleb 53 1024; neqb := @Beqb 53 1024; nmax := fmaxi |}.

(** ** Meaning: [is64 a x], the float a is the finite number x *)
Definition is64 (a : F) (x : R) : Prop := is_finite a = true /\ B2R a = x.
Definition fexp64 : Z -> Z := FLT_exp (-1074) 53.
Definition rnd (x : R) : R := round radix2 fexp64 ZnearestE x.
Definition fmt (x : R) : Prop := generic_format radix2 fexp64 x.
Definition big : R := bpow radix2 1023.
(** the unit roundoff *)
Definition u53 : R := / 9007199254740992.
Global Instance prec53 : Prec_gt_0 53. Proof. reflexivity. Qed.
Global Instance exp64 : Valid_exp fexp64. Proof. unfold fexp64. apply FLT_exp_valid. reflexivity. Qed.
Lemma u53_pos : 0 < u53. Proof. unfold u53. lra. Qed.
Lemma u_eq : / 2 * bpow radix2 (-53 + 1) = u53.
Proof. unfold u53. change (-53 + 1)%Z with (-52)%Z. change (bpow radix2 (-52)) with (/ IZR 4503599627370496). lra. Qed.
Lemma fmt_rnd x : fmt (rnd x). Proof. apply generic_format_round; [apply exp64|apply valid_rnd_N]. Qed.
Lemma rnd_id x : fmt x -> rnd x = x. Proof. intros H. apply round_generic; [apply valid_rnd_N|exact H]. Qed.
Lemma rnd_le x y : x <= y -> rnd x <= rnd y. Proof. intros H. apply round_le; [apply exp64|apply valid_rnd_N|exact H]. Qed.
Lemma rnd_0 : rnd 0 = 0. Proof. apply round_0. apply valid_rnd_N. Qed.
Lemma fmt_0 : fmt 0. Proof. apply generic_format_0. Qed.
Lemma fmt_opp x : fmt x -> fmt (- x). Proof. apply generic_format_opp. Qed.
Lemma fmt_abs x : fmt x -> fmt (Rabs x). Proof. apply generic_format_abs. Qed.
Lemma rnd_opp x : rnd (- x) = - rnd x. Proof. unfold rnd. apply round_NE_opp. Qed.
Lemma fmt_bpow e : (-1074 <= e)%Z -> fmt (bpow radix2 e).
Proof. intros H. apply generic_format_bpow. unfold fexp64, FLT_exp. lia. Qed.
Lemma fmt_me m e : (Z.abs m < 2 ^ 53)%Z -> (-1074 <= e)%Z -> fmt (IZR m * bpow radix2 e).
Proof. intros H K. apply generic_format_FLT. exists (Float radix2 m e); [reflexivity|exact H|exact K]. Qed.
Lemma fmt_Z z : (Z.abs z < 2 ^ 53)%Z -> fmt (IZR z).
Proof. intros H. replace (IZR z) with (IZR z * bpow radix2 0) by (cbn; ring). apply fmt_me; [exact H|lia]. Qed.
Lemma is64_fmt a x : is64 a x -> fmt x.
Proof. intros [_ <-]. apply (generic_format_B2R 53 1024). Qed.
Lemma is64_fun a x y : is64 a x -> is64 a y -> x = y. Proof. intros [_ <-] [_ <-]. reflexivity. Qed.

(** results of moderate size do not overflow *)
Lemma rnd_big x : Rabs x <= big -> Rabs (rnd x) < bpow radix2 1024.
Proof.
  intros H. apply Rle_lt_trans with big.
  - unfold rnd. apply abs_round_le_generic; [apply exp64|apply valid_rnd_N| |exact H]. apply (fmt_bpow 1023). lia.
  - apply bpow_lt. lia.
Qed.
Lemma no_ovf x : Rabs x <= big -> Rlt_bool (Rabs (round radix2 (SpecFloat.fexp 53 1024) (round_mode mode_NE) x)) (bpow radix2 1024) = true.
Proof. intros H. apply Rlt_bool_true. exact (rnd_big x H). Qed.
(** ** The operations round the exact result *)
Lemma add64 a b x y : is64 a x -> is64 b y -> Rabs (x + y) <= big -> is64 (bfadd a b) (rnd (x + y)).
Proof.
  intros [A <-] [B <-] H. pose proof (Bplus_correct 53 1024 pgt plt mode_NE a b A B) as C. rewrite no_ovf in C by auto.
  destruct C as (C & D & _). split; [exact D|exact C].
Qed.
Lemma sub64 a b x y : is64 a x -> is64 b y -> Rabs (x - y) <= big -> is64 (bfsub a b) (rnd (x - y)).
Proof.
  intros [A <-] [B <-] H. pose proof (Bminus_correct 53 1024 pgt plt mode_NE a b A B) as C. rewrite no_ovf in C by auto.
  destruct C as (C & D & _). split; [exact D|exact C].
Qed.
Lemma mul64 a b x y : is64 a x -> is64 b y -> Rabs (x * y) <= big -> is64 (bfmul a b) (rnd (x * y)).
Proof.
  intros [A <-] [B <-] H. pose proof (Bmult_correct 53 1024 pgt plt mode_NE a b) as C. rewrite no_ovf in C by auto.
  destruct C as (C & D & _). split; [|exact C]. unfold bfmul. rewrite D, A, B. reflexivity.
Qed.
Lemma div64 a b x y : is64 a x -> is64 b y -> y <> 0 -> Rabs (x / y) <= big -> is64 (bfdiv a b) (rnd (x / y)).
Proof.
  intros [A <-] [B <-] Hy H. pose proof (Bdiv_correct 53 1024 pgt plt mode_NE a b Hy) as C. rewrite no_ovf in C by auto.
  destruct C as (C & D & _). split; [|exact C]. unfold bfdiv. rewrite D, A. reflexivity.
Qed.
Lemma sqrt64 a x : is64 a x -> 0 <= x -> is64 (bfsqrt a) (rnd (sqrt x)).
Proof.
  intros [A <-] H. destruct (Bsqrt_correct 53 1024 pgt plt mode_NE a) as (C & D & _). split; [|exact C]. unfold bfsqrt. rewrite D.
  destruct a as [s|s| |s m e Hb]; try reflexivity; try discriminate. destruct s; [|reflexivity]. exfalso.
  cbn [B2R] in H. revert H. apply Rlt_not_le. apply F2R_lt_0. reflexivity.
Qed.
Lemma opp64 a x : is64 a x -> is64 (Bopp a) (- x).
Proof. intros [A <-]. split; [rewrite is_finite_Bopp; exact A|apply B2R_Bopp]. Qed.
Lemma abs64 a x : is64 a x -> is64 (Babs a) (Rabs x).
Proof. intros [A <-]. split; [rewrite is_finite_Babs; exact A|apply B2R_Babs]. Qed.
Lemma me64 m e : (Z.abs m < 2 ^ 53)%Z -> (-1074 <= e <= 970)%Z -> is64 (fme m e) (IZR m * bpow radix2 e).
Proof.
  intros H K. pose proof (binary_normalize_correct 53 1024 pgt plt mode_NE m e false) as C. cbv zeta in C.
  change (F2R {| Fnum := m; Fexp := e |}) with (IZR m * bpow radix2 e) in C.
  assert (B : Rabs (IZR m * bpow radix2 e) <= big).
  { rewrite Rabs_mult, <- abs_IZR, (Rabs_pos_eq (bpow _ _)) by apply bpow_ge_0. unfold big. replace 1023%Z with (53 + 970)%Z by reflexivity. rewrite bpow_plus.
    apply Rmult_le_compat; [apply (IZR_le 0); lia|apply bpow_ge_0| |apply bpow_le; lia]. change (bpow radix2 53) with (IZR (2 ^ 53)). apply IZR_le. lia. }
  rewrite no_ovf in C by exact B. destruct C as (C & D & _). split; [exact D|]. unfold fme. rewrite C. exact (rnd_id _ (fmt_me m e H (proj1 K))).
Qed.
Lemma Z64 z : (Z.abs z < 2 ^ 53)%Z -> is64 (fme z 0) (IZR z).
Proof. intros H. pose proof (me64 z 0 H ltac:(lia)) as M. cbn [bpow] in M. rewrite Rmult_1_r in M. exact M. Qed.
Lemma lt64 a b x y : is64 a x -> is64 b y -> Bltb a b = Rlt_bool x y.
Proof. intros [A <-] [B <-]. apply Bltb_correct; auto. Qed.
Lemma le64 a b x y : is64 a x -> is64 b y -> Bleb a b = Rle_bool x y.
Proof. intros [A <-] [B <-]. apply Bleb_correct; auto. Qed.
Lemma eq64 a b x y : is64 a x -> is64 b y -> Beqb a b = Req_bool x y.
Proof. intros [A <-] [B <-]. apply Beqb_correct; auto. Qed.

(** ** Rounding errors *)
(** a sum of two binary64 numbers has no absolute error *)
Lemma rnd_plus x y : fmt x -> fmt y -> exists d, Rabs d <= u53 /\ rnd (x + y) = (x + y) * (1 + d).
Proof.
  intros Fx Fy. destruct (@FLT_plus_error_N_ex radix2 (-1074) 53 prec53 (fun n => negb (Z.even n)) x y Fx Fy) as (d & A & E).
  exists d. split; [|exact E]. eapply Rle_trans; [exact A|]. change (u_ro radix2 53) with (/ 2 * bpow radix2 (-53 + 1)). rewrite u_eq. pose proof u53_pos.
  apply Rmult_le_reg_r with (1 + u53); [lra|]. unfold Rdiv. rewrite Rmult_assoc, Rinv_l by lra. rewrite Rmult_1_r, Rmult_plus_distr_l, Rmult_1_r. pose proof (Rmult_lt_0_compat _ _ u53_pos u53_pos). lra.
Qed.
Definition tiny : R := bpow radix2 (-1022).
(** above the underflow threshold the error is relative *)
Lemma rnd_rel x : x = 0 \/ tiny <= Rabs x -> exists d, Rabs d <= u53 /\ rnd x = x * (1 + d).
Proof.
  intros [-> |H].
  - exists 0. rewrite rnd_0, Rabs_R0. split; [pose proof u53_pos; lra|ring].
  - destruct (relative_error_N_FLT_ex radix2 (-1074) 53 ltac:(lia) (fun n => negb (Z.even n)) x) as (d & A & E).
    + exact H.
    + exists d. split; [|exact E]. rewrite <- u_eq. exact A.
Qed.
Definition eta64 : R := / 2 * bpow radix2 (-1074).
Lemma rnd_ex x : exists d e, Rabs d <= u53 /\ Rabs e <= eta64 /\ rnd x = x * (1 + d) + e.
Proof.
  destruct (error_N_FLT radix2 (-1074) 53 ltac:(lia) (fun n => negb (Z.even n)) x) as (d & e & A & B & _ & E).
  exists d, e. rewrite <- u_eq. split; [exact A|split; [exact B|exact E]].
Qed.
(** ** Factors: a product of k rounding errors or their inverses *)
Definition w53 : R := / (1 - u53).
Definition fac (k : nat) (t : R) : Prop := / w53 ^ k <= t <= w53 ^ k.
Lemma w53_gt : 1 < w53.
Proof. unfold w53. rewrite <- Rinv_1 at 1. apply Rinv_lt_contravar; unfold u53; lra. Qed.
Lemma w53_pow k : 1 <= w53 ^ k. Proof. apply pow_R1_Rle. pose proof w53_gt. lra. Qed.
Lemma fac_pos k t : fac k t -> 0 < t.
Proof. intros [H _]. apply Rlt_le_trans with (/ w53 ^ k); auto. apply Rinv_0_lt_compat. pose proof (w53_pow k). lra. Qed.
Lemma fac_d d : Rabs d <= u53 -> fac 1 (1 + d).
Proof.
  intros H. apply Rabs_le_inv in H. unfold fac. rewrite pow_1. unfold w53. rewrite Rinv_inv. split; [lra|].
  apply Rle_trans with (1 + u53); [lra|]. apply Rmult_le_reg_r with (1 - u53); [unfold u53; lra|]. rewrite Rinv_l by (unfold u53; lra).
  pose proof (Rmult_lt_0_compat _ _ u53_pos u53_pos). lra.
Qed.
Lemma fac_1 k : fac k 1.
Proof. pose proof (w53_pow k). split; [|auto]. apply Rle_trans with (/ 1); [|rewrite Rinv_1; lra]. apply Rinv_le_contravar; lra. Qed.
Lemma fac_le j k t : (j <= k)%nat -> fac j t -> fac k t.
Proof.
  intros H [A B]. pose proof (w53_pow j). assert (w53 ^ j <= w53 ^ k) by (apply Rle_pow; auto; pose proof w53_gt; lra).
  split; [|lra]. eapply Rle_trans; [|exact A]. apply Rinv_le_contravar; lra.
Qed.
Lemma fac_mul j k s t : fac j s -> fac k t -> fac (j + k) (s * t).
Proof.
  intros Hs Ht. pose proof (fac_pos _ _ Hs). pose proof (fac_pos _ _ Ht). destruct Hs as [A B], Ht as [C D]. unfold fac. rewrite pow_add.
  pose proof (w53_pow j). pose proof (w53_pow k).
  split; [rewrite Rinv_mult; apply Rmult_le_compat; auto; left; apply Rinv_0_lt_compat; lra|apply Rmult_le_compat; lra].
Qed.
Lemma fac_inv k t : fac k t -> fac k (/ t).
Proof.
  intros H. pose proof (fac_pos _ _ H). destruct H as [A B]. pose proof (w53_pow k). split.
  - apply Rinv_le_contravar; auto.
  - rewrite <- (Rinv_inv (w53 ^ k)). apply Rinv_le_contravar; auto. apply Rinv_0_lt_compat; lra.
Qed.
Lemma fac_div j k s t : fac j s -> fac k t -> fac (j + k) (s / t).
Proof. intros A B. apply fac_mul; [auto|apply fac_inv; auto]. Qed.
Lemma fac_sqrt k t : fac (k + k) t -> fac k (sqrt t).
Proof.
  intros [A B]. pose proof (w53_pow k). rewrite pow_add in A, B. split.
  - replace (/ w53 ^ k) with (sqrt (/ (w53 ^ k * w53 ^ k))).
    + apply sqrt_le_1_alt; auto.
    + rewrite Rinv_mult. apply sqrt_square. left. apply Rinv_0_lt_compat; lra.
  - replace (w53 ^ k) with (sqrt (w53 ^ k * w53 ^ k)) by (apply sqrt_square; lra). apply sqrt_le_1_alt; auto.
Qed.
Lemma fac_err k t : fac k t -> Rabs (t - 1) <= w53 ^ k - 1.
Proof.
  intros [A B]. apply Rabs_le. split; [|lra]. pose proof (w53_pow k). assert (2 - w53 ^ k <= / w53 ^ k).
  { apply Rmult_le_reg_r with (w53 ^ k); [lra|]. rewrite Rinv_l by lra. set (v := w53 ^ k) in *. assert (0 <= (v - 1) * (v - 1)) by (apply Rle_0_sqr). lra. }
  lra.
Qed.
(** sum of two terms of the same sign *)
Lemma fac_plus k a b s t : 0 <= a * b -> fac k s -> fac k t -> exists r, fac k r /\ a * s + b * t = (a + b) * r.
Proof.
  intros H Hs Ht. destruct (Req_dec (a + b) 0) as [E|E].
  - assert (a = 0). { assert (b = - a) by lra. subst b. assert (a * a <= 0) by lra. assert (0 <= a * a) by apply Rle_0_sqr. assert (Z : a * a = 0) by lra. apply Rmult_integral in Z. tauto. }
    exists 1. split; [apply fac_1|]. assert (b = 0) by lra. subst. ring.
  - exists ((a * s + b * t) / (a + b)). split; [|field; auto].
    assert (Q : (a * s + b * t) / (a + b) = s + b / (a + b) * (t - s)) by (field; auto).
    assert (P : 0 <= b / (a + b) <= 1).
    { assert (0 < (a + b) * (a + b)) by (apply Rsqr_pos_lt; auto). assert (0 <= b * b) by apply Rle_0_sqr. assert (0 <= a * a) by apply Rle_0_sqr.
      replace (b / (a + b)) with (b * (a + b) / ((a + b) * (a + b))) by (field; auto). split.
      - apply Rmult_le_pos; [lra|left; apply Rinv_0_lt_compat; auto].
      - apply Rmult_le_reg_r with ((a + b) * (a + b)); auto. unfold Rdiv. rewrite Rmult_assoc, Rinv_l by lra. lra. }
    destruct Hs as [A B], Ht as [C D]. rewrite Q. set (p := b / (a + b)) in *.
    replace (s + p * (t - s)) with ((1 - p) * s + p * t) by ring.
    split.
    + replace (/ w53 ^ k) with ((1 - p) * / w53 ^ k + p * / w53 ^ k) by ring. apply Rplus_le_compat; apply Rmult_le_compat_l; lra.
    + replace (w53 ^ k) with ((1 - p) * w53 ^ k + p * w53 ^ k) by ring. apply Rplus_le_compat; apply Rmult_le_compat_l; lra.
Qed.
(** the value of an evaluated float *)
Lemma sf_is (a : F) s m e : B2SF a = SpecFloat.S754_finite s m e -> is64 a (IZR (cond_Zopp s (Zpos m)) * bpow radix2 e).
Proof.
  destruct a as [b|b| |b m' e' Hm]; try discriminate. cbn [B2SF]. intros H. assert (b = s /\ m' = m /\ e' = e) as (-> & -> & ->) by (split; [|split]; congruence). split; reflexivity.
Qed.
