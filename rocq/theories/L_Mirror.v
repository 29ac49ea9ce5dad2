(** * Mirror images: parity of the operations of XN *)
From Coq Require Import Reals Lra ZArith List Bool String Lia.
From Verif Require Import Num NumR NumX.
Import ListNotations.
Local Open Scope R_scope.
Local Open Scope list_scope.
Local Notation len := List.length.

(** [x'] is the mirror value of [x]: the opposite when [b], the same otherwise *)
Definition flip (b : bool) (x : XN) : XN := if b then nopp XN x else x.
Definition sg (b : bool) (x x' : XN) : Prop := x' = flip b x.
Lemma sg_const (x : XN) : sg false x x.
Proof. reflexivity. Qed.
Lemma sg_opp1 (x : XN) : sg true x (nopp XN x).
Proof. reflexivity. Qed.
Lemma sg_same x x' : sg false x x' -> x' = x.
Proof. auto. Qed.
Lemma sg_zero b : sg b (nZ XN 0) (nZ XN 0).
Proof. destruct b; [|reflexivity]. cbn. unfold sg. cbn. f_equal. ring. Qed.
Lemma sg_nan b : sg b (nnan XN) (nnan XN).
Proof. destruct b; reflexivity. Qed.
Lemma oppX_invol (x : XN) : nopp XN (nopp XN x) = x.
Proof. destruct x; cbn; auto. rewrite Ropp_involutive. reflexivity. Qed.
Lemma infmul_opp b y : xinf_mul b (- y) = xopp (xinf_mul b y).
Proof. unfold xinf_mul. destruct (Rltb_spec 0 y), (Rltb_spec 0 (- y)), (Rltb_spec y 0), (Rltb_spec (- y) 0), b; cbn; auto; lra. Qed.
Lemma infmul_neg b y : xinf_mul (negb b) y = xopp (xinf_mul b y).
Proof. unfold xinf_mul. destruct (Rltb 0 y), (Rltb y 0), b; reflexivity. Qed.
Lemma sg_add b x x' y y' : sg b x x' -> sg b y y' -> sg b (nadd XN x y) (nadd XN x' y').
Proof. unfold sg. intros -> ->. destruct b; [|reflexivity]. destruct x, y; cbn; auto. f_equal. ring. Qed.
Lemma sg_sub b x x' y y' : sg b x x' -> sg b y y' -> sg b (nsub XN x y) (nsub XN x' y').
Proof. unfold sg. intros -> ->. destruct b; [|reflexivity]. destruct x, y; cbn; auto. f_equal. ring. Qed.
Lemma sg_mul b c x x' y y' : sg b x x' -> sg c y y' -> sg (xorb b c) (nmul XN x y) (nmul XN x' y').
Proof.
  unfold sg. intros -> ->. destruct b, c; cbn [flip xorb]; destruct x, y; cbn; auto; rewrite ?infmul_opp; try (f_equal; ring);
  rewrite <- ?(infmul_neg true), <- ?(infmul_neg false); cbn [negb]; rewrite ?infmul_opp, <- ?(infmul_neg true), <- ?(infmul_neg false); cbn [negb]; reflexivity.
Qed.
Lemma sg_div b x x' y y' : sg b x x' -> sg false y y' -> sg b (ndiv XN x y) (ndiv XN x' y').
Proof.
  unfold sg. intros -> ->. destruct b; [|reflexivity]. cbn [flip]. destruct x, y; cbn; auto.
  - destruct (Reqb r0 0); [apply infmul_opp|]. cbn. f_equal. unfold Rdiv. ring.
  - f_equal; ring.
  - f_equal; ring.
  - destruct (Rltb r 0); reflexivity.
  - destruct (Rltb r 0); reflexivity.
Qed.
Lemma sg_opp b x x' : sg b x x' -> sg b (nopp XN x) (nopp XN x').
Proof. unfold sg. intros ->. destruct b; reflexivity. Qed.
Lemma sg_abs b x x' : sg b x x' -> sg false (nabs XN x) (nabs XN x').
Proof. unfold sg. intros ->. destruct b; [|reflexivity]. destruct x; cbn; auto. f_equal. apply Rabs_Ropp. Qed.
Lemma sg_sq b x x' : sg b x x' -> sg false (sq x) (sq x').
Proof. intros H. pose proof (sg_mul b b _ _ _ _ H H) as K. rewrite xorb_nilpotent in K. exact K. Qed.
Lemma sg_fun (f : XN -> XN) x x' : sg false x x' -> sg false (f x) (f x').
Proof. unfold sg. intros ->. reflexivity. Qed.
Lemma sg_cos b x x' : sg b x x' -> sg false (ncos XN x) (ncos XN x').
Proof. unfold sg. intros ->. destruct b; [|reflexivity]. destruct x; cbn; auto. f_equal. apply cos_neg. Qed.
Lemma sg_sin b x x' : sg b x x' -> sg b (nsin XN x) (nsin XN x').
Proof. unfold sg. intros ->. destruct b; [|reflexivity]. destruct x; cbn; auto. f_equal. apply sin_neg. Qed.
Lemma sg_tan b x x' : sg b x x' -> sg b (ntan XN x) (ntan XN x').
Proof. unfold sg. intros ->. destruct b; [|reflexivity]. destruct x; cbn; auto. rewrite cos_neg. destruct (Reqb (cos r) 0); [reflexivity|]. cbn. f_equal. apply tan_neg. Qed.
Lemma sg_atan b x x' : sg b x x' -> sg b (natan XN x) (natan XN x').
Proof. unfold sg. intros ->. destruct b; [|reflexivity]. destruct x; cbn; auto; f_equal; [apply atan_opp|ring]. Qed.
Lemma sg_sign b x x' : sg b x x' -> sg b (nsign XN x) (nsign XN x').
Proof.
  unfold sg. intros ->. destruct b; [|reflexivity]. destruct x; cbn; auto. 2: f_equal; ring. f_equal. unfold Rsgn.
  destruct (Rlt_dec 0 r), (Rlt_dec 0 (- r)), (Rlt_dec r 0), (Rlt_dec (- r) 0); lra.
Qed.
Lemma sg_if b (c c' : bool) x x' y y' : c' = c -> sg b x x' -> sg b y y' -> sg b (if c then x else y) (if c' then x' else y').
Proof. intros -> H K. destruct c; auto. Qed.
Lemma sg_lt x x' y y' : sg false x x' -> sg false y y' -> nlt XN x' y' = nlt XN x y.
Proof. unfold sg. intros -> ->. reflexivity. Qed.
Lemma sg_eqb0 b x x' : sg b x x' -> neqb XN x' (nZ XN 0) = neqb XN x (nZ XN 0).
Proof. unfold sg. intros ->. destruct b; [|reflexivity]. destruct x; cbn; auto. destruct (Reqb_spec (- r) 0), (Reqb_spec r 0); auto; lra. Qed.
Lemma sg_b b b' x x' : b = b' -> sg b x x' -> sg b' x x'.
Proof. intros ->. auto. Qed.
Lemma add_zero_r (x : XN) : nadd XN x (nZ XN 0) = x.
Proof. destruct x; cbn; auto. f_equal. ring. Qed.
Lemma sub_zero_r (x : XN) : nsub XN x (nZ XN 0) = x.
Proof. destruct x; cbn; auto. f_equal. ring. Qed.

(** ** Automation *)
Create HintDb parity.
Ltac par :=
  lazymatch goal with
  | |- sg _ (nadd XN _ _) (nadd XN _ _) => eapply sg_add; [par|parw]
  | |- sg _ (nsub XN _ _) (nsub XN _ _) => eapply sg_sub; [par|parw]
  | |- sg _ (nmul XN _ _) (nmul XN _ _) => eapply sg_mul; par
  | |- sg _ (ndiv XN _ _) (ndiv XN _ _) => eapply sg_div; [par|parw]
  | |- sg _ (sq _) (sq _) => eapply sg_sq; par
  | |- sg _ (nopp XN _) (nopp XN _) => eapply sg_opp; par
  | |- sg _ (nabs XN _) (nabs XN _) => eapply sg_abs; par
  | |- sg _ (nsqrt XN _) (nsqrt XN _) => eapply (sg_fun (nsqrt XN)); parw
  | |- sg _ (nsign XN _) (nsign XN _) => eapply sg_sign; par
  | |- sg _ (ncos XN _) (ncos XN _) => eapply sg_cos; par
  | |- sg _ (nsin XN _) (nsin XN _) => eapply sg_sin; par
  | |- sg _ (ntan XN _) (ntan XN _) => eapply sg_tan; par
  | |- sg _ (natan XN _) (natan XN _) => eapply sg_atan; par
  | |- sg _ (nacos XN _) (nacos XN _) => eapply (sg_fun (nacos XN)); parw
  | |- sg _ ?x ?x => first [eassumption | eapply sg_const]
  | |- sg _ _ _ => first [eassumption | apply sg_opp1 | eauto with parity]
  end
with parw := eapply sg_b; [|par]; reflexivity.
Ltac sgw b := apply (fun H : sg b _ _ => H).

(** ** The angle of a mirrored point *)
Lemma atan2_mirror (x y : XN) : (x = Fin 0 /\ y = Fin 0) \/
  (sg true (ncos XN (natan2 XN y x)) (ncos XN (natan2 XN y (nopp XN x))) /\ sg false (nsin XN (natan2 XN y x)) (nsin XN (natan2 XN y (nopp XN x)))).
Proof.
  destruct x as [x| | |], y as [y| | |]; try (right; split; reflexivity). destruct (Req_dec (x * x + y * y) 0) as [Z|Z].
  - left. assert (x = 0) by nra. assert (y = 0) by nra. subst. auto.
  - right. split; unfold sg; cbn; f_equal; unfold Ratan2; (destruct (Req_EM_T (x * x + y * y) 0) as [Z1|_]; [contradiction|]);
    (destruct (Req_EM_T (- x * - x + y * y) 0) as [Z1|_]; [exfalso; apply Z; rewrite <- Z1; ring|]).
    all: assert (HP : 0 < x * x + y * y) by nra; assert (HS : 0 < sqrt (x * x + y * y)) by (apply sqrt_lt_R0; exact HP).
    all: replace (- x * - x + y * y) with (x * x + y * y) by ring; set (n := sqrt (x * x + y * y)) in *.
    all: assert (HN : n * n = x * x + y * y) by (unfold n; apply sqrt_sqrt; lra).
    all: replace (- x / n) with (- (x / n)) by (field; lra); rewrite acos_opp.
    all: assert (HB : -1 <= x / n <= 1) by (split; [apply Rmult_le_reg_r with n; [exact HS|]; replace (x / n * n) with x by (field; lra); nra|apply Rmult_le_reg_r with n; [exact HS|]; replace (x / n * n) with x by (field; lra); nra]).
    + destruct (Rlt_dec y 0); rewrite ?cos_neg, Rtrigo_facts.cos_pi_minus; reflexivity.
    + destruct (Rlt_dec y 0); rewrite ?sin_neg, Rtrigo_facts.sin_pi_minus; reflexivity.
Qed.
