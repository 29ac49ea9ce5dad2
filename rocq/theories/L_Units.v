(** * Change of units: scaled numbers and the operations of XN *)
From Coq Require Import Reals Lra ZArith List Bool String.
From Verif Require Import Num NumR NumX M_Elliptic M_Line M_Doublet M_Cylinder M_Misc M_Skewed M_Solver M_Turbine M_Farm.
Import ListNotations.
Local Open Scope R_scope.
Local Open Scope list_scope.
Local Notation len := List.length.

(** the number that measures a quantity when the unit is divided by [w] *)
Definition scale (w : R) (x : XN) : XN := match x with Fin r => Fin (w * r) | PInf => PInf | MInf => MInf | NaN => NaN end.
Definition scale3 (w : R) (p : XN * XN * XN) : XN * XN * XN := let '(x, y, z) := p in (scale w x, scale w y, scale w z).

(** [x'] measures the same quantity as [x], of weight [w] *)
Definition sc (w : R) (x x' : XN) : Prop := 0 < w /\ x' = scale w x.
Lemma sc_intro w x : 0 < w -> sc w x (scale w x).
Proof. split; auto. Qed.
Lemma sc_w w w' x x' : w = w' -> sc w x x' -> sc w' x x'.
Proof. intros ->. auto. Qed.
Lemma scale_1 x : scale 1 x = x.
Proof. destruct x; cbn; auto. rewrite Rmult_1_l. reflexivity. Qed.
Lemma sc_const (x : XN) : sc 1 x x.
Proof. split; [lra|]. symmetry. apply scale_1. Qed.
Lemma sc_same x x' : sc 1 x x' -> x' = x.
Proof. intros [_ ->]. apply scale_1. Qed.
Lemma sc_zero w : 0 < w -> sc w (nZ XN 0) (nZ XN 0).
Proof. intros H. split; auto. cbn. f_equal. ring. Qed.
Lemma sc_inf w : 0 < w -> sc w (ninf XN) (ninf XN).
Proof. split; auto. Qed.
Lemma sc_nan w : 0 < w -> sc w (nnan XN) (nnan XN).
Proof. split; auto. Qed.
Lemma Rltb_scale w x y : 0 < w -> Rltb (w * x) (w * y) = Rltb x y.
Proof. intros H. destruct (Rltb_spec x y), (Rltb_spec (w * x) (w * y)); auto; nra. Qed.
Lemma Rltb_scale0 w y : 0 < w -> Rltb 0 (w * y) = Rltb 0 y.
Proof. intros H. rewrite <- (Rltb_scale w 0 y H). f_equal. ring. Qed.
Lemma Rltb_scale0' w y : 0 < w -> Rltb (w * y) 0 = Rltb y 0.
Proof. intros H. rewrite <- (Rltb_scale w y 0 H). f_equal. ring. Qed.
Lemma Rleb_scale w x y : 0 < w -> Rleb (w * x) (w * y) = Rleb x y.
Proof. intros H. destruct (Rleb_spec x y), (Rleb_spec (w * x) (w * y)); auto; nra. Qed.
Lemma Reqb_scale w x y : 0 < w -> Reqb (w * x) (w * y) = Reqb x y.
Proof. intros H. destruct (Reqb_spec x y), (Reqb_spec (w * x) (w * y)); auto; [subst; contradiction|exfalso; apply n; nra]. Qed.
Lemma Reqb_scale0 w y : 0 < w -> Reqb (w * y) 0 = Reqb y 0.
Proof. intros H. rewrite <- (Reqb_scale w y 0 H). f_equal. ring. Qed.
Lemma inf_mul_scale w b y : 0 < w -> xinf_mul b (w * y) = xinf_mul b y.
Proof. intros H. unfold xinf_mul. rewrite Rltb_scale0, Rltb_scale0' by auto. reflexivity. Qed.
Lemma sc_lt w w2 x x' y y' : sc w x x' -> sc w2 y y' -> w = w2 -> nlt XN x' y' = nlt XN x y.
Proof. intros [H ->] [_ ->] <-. destruct x, y; cbn; auto. apply Rltb_scale, H. Qed.
Lemma sc_le w w2 x x' y y' : sc w x x' -> sc w2 y y' -> w = w2 -> nle XN x' y' = nle XN x y.
Proof. intros [H ->] [_ ->] <-. destruct x, y; cbn; auto. apply Rleb_scale, H. Qed.
Lemma sc_eqb w w2 x x' y y' : sc w x x' -> sc w2 y y' -> w = w2 -> neqb XN x' y' = neqb XN x y.
Proof. intros [H ->] [_ ->] <-. destruct x, y; cbn; auto. apply Reqb_scale, H. Qed.
Lemma sc_eqb0 w x x' : sc w x x' -> neqb XN x' (nZ XN 0) = neqb XN x (nZ XN 0).
Proof. intros H. apply (sc_eqb w w x x' (nZ XN 0) (nZ XN 0)); auto. apply sc_zero, H. Qed.
Lemma sc_gt0 w x x' : sc w x x' -> nlt XN (nZ XN 0) x' = nlt XN (nZ XN 0) x.
Proof. intros H. apply (sc_lt w w (nZ XN 0) (nZ XN 0) x x'); auto. apply sc_zero, H. Qed.
Lemma sc_lt0 w x x' : sc w x x' -> nlt XN x' (nZ XN 0) = nlt XN x (nZ XN 0).
Proof. intros H. apply (sc_lt w w x x' (nZ XN 0) (nZ XN 0)); auto. apply sc_zero, H. Qed.
Lemma sc_ge0 w x x' : sc w x x' -> nle XN (nZ XN 0) x' = nle XN (nZ XN 0) x.
Proof. intros H. apply (sc_le w w (nZ XN 0) (nZ XN 0) x x'); auto. apply sc_zero, H. Qed.
Lemma sc_eqinf w x x' : sc w x x' -> neqb XN x' (ninf XN) = neqb XN x (ninf XN).
Proof. intros H. apply (sc_eqb w w x x' (ninf XN) (ninf XN)); auto. apply sc_inf, H. Qed.
Lemma sc_add w w2 x x' y y' : sc w x x' -> sc w2 y y' -> w = w2 -> sc w (nadd XN x y) (nadd XN x' y').
Proof. intros [H ->] [_ ->] <-. split; auto. destruct x, y; cbn; auto. f_equal. ring. Qed.
Lemma sc_sub w w2 x x' y y' : sc w x x' -> sc w2 y y' -> w = w2 -> sc w (nsub XN x y) (nsub XN x' y').
Proof. intros [H ->] [_ ->] <-. split; auto. destruct x, y; cbn; auto. f_equal. ring. Qed.
Lemma sc_mul w w2 x x' y y' : sc w x x' -> sc w2 y y' -> sc (w * w2) (nmul XN x y) (nmul XN x' y').
Proof.
  intros [H ->] [H2 ->]. split; [nra|]. destruct x, y; cbn; auto; rewrite ?inf_mul_scale by auto; try (unfold xinf_mul; destruct (Rltb 0 r); [|destruct (Rltb r 0)]; reflexivity).
  f_equal. ring.
Qed.
Lemma sc_div w w2 x x' y y' : sc w x x' -> sc w2 y y' -> sc (w / w2) (ndiv XN x y) (ndiv XN x' y').
Proof.
  intros [H ->] [H2 ->]. split; [apply Rdiv_lt_0_compat; auto|]. destruct x, y; cbn; auto; rewrite ?Rltb_scale0', ?Reqb_scale0, ?inf_mul_scale by auto; auto.
  - destruct (Reqb_spec r0 0) as [E|E]; [unfold xinf_mul; destruct (Rltb 0 r); [|destruct (Rltb r 0)]; reflexivity|]. cbn. f_equal. field. lra.
  - f_equal. ring.
  - f_equal. ring.
  - destruct (Rltb r 0); reflexivity.
  - destruct (Rltb r 0); reflexivity.
Qed.
Lemma sc_opp w x x' : sc w x x' -> sc w (nopp XN x) (nopp XN x').
Proof. intros [H ->]. split; auto. destruct x; cbn; auto. f_equal. ring. Qed.
Lemma sc_abs w x x' : sc w x x' -> sc w (nabs XN x) (nabs XN x').
Proof. intros [H ->]. split; auto. destruct x; cbn; auto. f_equal. rewrite Rabs_mult, (Rabs_right w) by lra. reflexivity. Qed.
Lemma sc_sqrt w w2 x x' : sc w2 x x' -> 0 < w -> w2 = w * w -> sc w (nsqrt XN x) (nsqrt XN x').
Proof.
  intros [H ->] Hw ->. split; auto. destruct x; cbn; auto. rewrite Rltb_scale0' by auto. destruct (Rltb_spec r 0); [reflexivity|].
  cbn. f_equal. rewrite sqrt_mult by nra. rewrite sqrt_square by lra. reflexivity.
Qed.
Lemma sc_max w w2 x x' y y' : sc w x x' -> sc w2 y y' -> w = w2 -> sc w (nmax XN x y) (nmax XN x' y').
Proof. intros [H ->] [_ ->] <-. split; auto. destruct x, y; cbn; auto. f_equal. rewrite RmaxRmult by lra. reflexivity. Qed.
Lemma sc_sign w x x' : sc w x x' -> sc 1 (nsign XN x) (nsign XN x').
Proof.
  intros [H ->]. split; [lra|]. rewrite scale_1. destruct x; cbn; auto. f_equal. unfold Rsgn.
  destruct (Rlt_dec 0 r), (Rlt_dec 0 (w * r)), (Rlt_dec r 0), (Rlt_dec (w * r) 0); auto; exfalso; nra.
Qed.
Lemma sc_atan2 w w2 y y' x x' : sc w y y' -> sc w2 x x' -> w = w2 -> sc 1 (natan2 XN y x) (natan2 XN y' x').
Proof.
  intros [H ->] [_ ->] <-. split; [lra|]. rewrite scale_1. destruct x, y; cbn; auto. f_equal. unfold Ratan2.
  assert (E : w * r * (w * r) + w * r0 * (w * r0) = (w * w) * (r * r + r0 * r0)) by ring. rewrite E.
  destruct (Req_EM_T (r * r + r0 * r0) 0) as [Z|Z], (Req_EM_T (w * w * (r * r + r0 * r0)) 0) as [Z'|Z']; auto.
  - exfalso. apply Z'. rewrite Z. ring.
  - exfalso. apply Rmult_integral in Z'. destruct Z' as [Z'|Z']; [nra|auto].
  - assert (HS : w * r / sqrt (w * w * (r * r + r0 * r0)) = r / sqrt (r * r + r0 * r0)).
    { rewrite sqrt_mult by nra. rewrite sqrt_square by lra. field. split; [|lra]. intros HH. apply sqrt_eq_0 in HH; nra. }
    rewrite HS. destruct (Rlt_dec r0 0), (Rlt_dec (w * r0) 0); auto; exfalso; nra.
Qed.
Lemma sc_fun (f : XN -> XN) x x' : sc 1 x x' -> sc 1 (f x) (f x').
Proof. intros H. rewrite (sc_same _ _ H). apply sc_const. Qed.
Lemma sc_fun2 (f : XN -> XN -> XN) x x' y y' : sc 1 x x' -> sc 1 y y' -> sc 1 (f x y) (f x' y').
Proof. intros H K. rewrite (sc_same _ _ H), (sc_same _ _ K). apply sc_const. Qed.
Lemma sc_sq w x x' : sc w x x' -> sc (w * w) (sq x) (sq x').
Proof. intros H. apply sc_mul; auto. Qed.
Lemma sc_if w w2 (b b' : bool) x x' y y' : b' = b -> sc w x x' -> sc w2 y y' -> w = w2 -> sc w (if b then x else y) (if b' then x' else y').
Proof. intros -> H K <-. destruct b; auto. Qed.
Lemma sc_pos w x x' : sc w x x' -> 0 < w.
Proof. intros [H _]; exact H. Qed.
(** powers with the exponents of VortexDoublet.py *)
Lemma sc_p12 w x x' : sc (w * w) x x' -> 0 < w -> sc w (npow XN x (nQ XN 1 2)) (npow XN x' (nQ XN 1 2)).
Proof.
  intros [H ->] Hw. split; auto. destruct x; cbn; auto.
  - rewrite Rltb_scale0', Reqb_scale0 by auto. rewrite !(proj2 (Rltb_false (1 / 2) 0)) by lra. rewrite !(proj2 (Rltb_true 0 (1 / 2))) by lra.
    destruct (Rltb_spec r 0); [reflexivity|]. destruct (Reqb_spec r 0); cbn; f_equal; [ring|]. rewrite !Rpw_half by nra. rewrite sqrt_mult by nra. rewrite sqrt_square by lra. reflexivity.
  - rewrite !(proj2 (Rltb_false (1 / 2) 0)) by lra. rewrite !(proj2 (Rltb_true 0 (1 / 2))) by lra. reflexivity.
Qed.
Lemma sc_p32 w x x' : sc (w * w) x x' -> 0 < w -> sc (w * w * w) (npow XN x (nQ XN 3 2)) (npow XN x' (nQ XN 3 2)).
Proof.
  intros [H ->] Hw. split; [nra|]. destruct x; cbn; auto.
  - rewrite Rltb_scale0', Reqb_scale0 by auto. rewrite !(proj2 (Rltb_false (3 / 2) 0)) by lra. rewrite !(proj2 (Rltb_true 0 (3 / 2))) by lra.
    destruct (Rltb_spec r 0); [reflexivity|]. destruct (Reqb_spec r 0); cbn; f_equal; [ring|]. rewrite !Rpw_3half by nra. rewrite sqrt_mult by nra. rewrite sqrt_square by lra. ring.
  - rewrite !(proj2 (Rltb_false (3 / 2) 0)) by lra. rewrite !(proj2 (Rltb_true 0 (3 / 2))) by lra. reflexivity.
Qed.

(** ** Automation *)
(** weights are products of positive reals *)
Ltac wpos := repeat (apply Rdiv_lt_0_compat || apply Rmult_lt_0_compat); solve [assumption | lra].
Ltac weq := first [reflexivity | solve [field; repeat split; lra] | solve [field; repeat split; nra]].
(** square roots of weights: candidates are tried in turn *)
Ltac wsqrt l v := first
  [ apply (sc_sqrt 1); [|lra|weq] | apply (sc_sqrt l); [|wpos|weq] | apply (sc_sqrt v); [|wpos|weq]
  | apply (sc_sqrt (l * l)); [|wpos|weq] | apply (sc_sqrt (l * v)); [|wpos|weq] ].
(** compute the weight of an expression from the weights of its variables *)
Ltac units l v :=
  lazymatch goal with
  | |- sc _ (nadd XN _ _) (nadd XN _ _) => eapply sc_add; [units l v|units l v|weq]
  | |- sc _ (nsub XN _ _) (nsub XN _ _) => eapply sc_sub; [units l v|units l v|weq]
  | |- sc _ (nmul XN _ _) (nmul XN _ _) => eapply sc_mul; units l v
  | |- sc _ (ndiv XN _ _) (ndiv XN _ _) => eapply sc_div; units l v
  | |- sc _ (sq _) (sq _) => eapply sc_sq; units l v
  | |- sc _ (nopp XN _) (nopp XN _) => eapply sc_opp; units l v
  | |- sc _ (nabs XN _) (nabs XN _) => eapply sc_abs; units l v
  | |- sc _ (nsqrt XN _) (nsqrt XN _) =>
      first [ eapply (sc_sqrt 1); [units l v|lra|weq] | eapply (sc_sqrt l); [units l v|wpos|weq] | eapply (sc_sqrt v); [units l v|wpos|weq]
            | eapply (sc_sqrt (l * l)); [units l v|wpos|weq] | eapply (sc_sqrt (l * v)); [units l v|wpos|weq] ]
  | |- sc _ (nsign XN _) (nsign XN _) => eapply sc_sign; units l v
  | |- sc _ (natan2 XN _ _) (natan2 XN _ _) => eapply sc_atan2; [units l v|units l v|weq]
  | |- sc _ (ncos XN _) (ncos XN _) => eapply (sc_fun (ncos XN)); one l v
  | |- sc _ (nsin XN _) (nsin XN _) => eapply (sc_fun (nsin XN)); one l v
  | |- sc _ (ntan XN _) (ntan XN _) => eapply (sc_fun (ntan XN)); one l v
  | |- sc _ (natan XN _) (natan XN _) => eapply (sc_fun (natan XN)); one l v
  | |- sc _ (nacos XN _) (nacos XN _) => eapply (sc_fun (nacos XN)); one l v
  | |- sc _ (ncosh XN _) (ncosh XN _) => eapply (sc_fun (ncosh XN)); one l v
  | |- sc _ (nellipk XN _) (nellipk XN _) => eapply (sc_fun (nellipk XN)); one l v
  | |- sc _ (nellipe XN _) (nellipe XN _) => eapply (sc_fun (nellipe XN)); one l v
  | |- sc _ (npow XN _ _) (npow XN _ _) => eapply (sc_fun2 (npow XN)); one l v
  | |- sc _ ?x ?x => first [eassumption | eapply sc_const]
  | |- sc _ _ _ => first [eassumption | eauto with units]
  end
with one l v := first [ eassumption | eapply sc_w; [|units l v]; weq ].
(** the same for a goal whose weight is known *)
Ltac unit_w l v := eapply sc_w; [|units l v]; weq.
Create HintDb units.
