(** * C69: the rotor-plane flow-expansion functions fKxit and fKzt (VortexCylinderSkewed.py) *)
From Coq Require Import Reals Lra Psatz Lia ZArith Bool String.
From Coquelicot Require Import Coquelicot.
From Coq Require Import List.
From Verif Require Import Num NumR NumX M_Elliptic M_Cylinder M_Skewed Spec SpecBS L_List L_X L_Built L_Calc L_Ell L_Cyl L_Carlson P_Skewed P_Cylinder P_Cylinder3.
Import ListNotations.
Local Open Scope R_scope.

(** ** The functions of the yaw article, as integrals *)
Definition D2 (r t : R) : R := 1 + r * r - 2 * r * cos t.
Definition expansion_integrand (m r t : R) : R := sin t * sin t / (sqrt (D2 r t) * (D2 r t + m * m * (sin t * sin t))).
(** Coleman's Kzt, in the form of VortexCylinderSkewed.py:484, and Kxit, in the form of line 446 *)
Definition Kzt_exact (m r : R) : R := r * m * sqrt (1 + m * m) / PI * RInt (expansion_integrand m r) 0 PI.
Definition Kxit_exact (m r : R) : R := r * (1 + m * m) / PI * RInt (expansion_integrand m r) 0 PI.

Lemma exact_relation m r : m <> 0 -> Kxit_exact m r = Kzt_exact m r * sqrt (1 + m * m) / m.
Proof.
  intros hm. unfold Kxit_exact, Kzt_exact. set (I := RInt _ _ _). assert (S : sqrt (1 + m * m) * sqrt (1 + m * m) = 1 + m * m) by (apply sqrt_sqrt; nra).
  pose proof PI_RGT_0. replace (1 + m * m) with (sqrt (1 + m * m) * sqrt (1 + m * m)) at 1 by exact S. field. lra.
Qed.

Lemma D2_pos r t : 0 <= r < 1 -> 0 < D2 r t.
Proof. intros H. unfold D2. pose proof (COS_bound t). assert (r * cos t <= r) by nra. assert (0 < (1 - r) * (1 - r)) by nra. nra. Qed.
Lemma D2_sym r t : D2 r (PI - t) = 1 + r * r + 2 * r * cos t.
Proof. unfold D2. rewrite Rtrigo_facts.cos_pi_minus. ring. Qed.

(** ** Landen: int_0^pi 1/sqrt(1+r^2+2r cos t) = 2 K(r^2), by t = s + asin(r sin s) *)
Section Landen.
  Variable r : R.
  Hypothesis hr : 0 <= r < 1.
  Let w s := sqrt (1 - r * r * (sin s * sin s)).
  Let ph s := s + atan (r * sin s / w s).
  Lemma rr_lt : r * r < 1. Proof. nra. Qed.
  Lemma w_sq_pos s : 0 < 1 - r * r * (sin s * sin s).
  Proof. apply dm_pos, rr_lt. Qed.
  Lemma w_pos s : 0 < w s. Proof. apply sqrt_lt_R0, w_sq_pos. Qed.
  Lemma w_w s : w s * w s = 1 - r * r * (sin s * sin s). Proof. apply sqrt_sqrt. pose proof (w_sq_pos s). lra. Qed.
  Lemma one_tan s : 1 + (r * sin s / w s) * (r * sin s / w s) = / (w s * w s).
  Proof. pose proof (w_pos s). replace 1 with (w s * w s / (w s * w s)) at 1 by (field; lra). 
    replace (w s * w s / (w s * w s) + r * sin s / w s * (r * sin s / w s)) with ((w s * w s + r * r * (sin s * sin s)) / (w s * w s)) by (field; lra).
    rewrite w_w at 1. rewrite w_w. pose proof (w_sq_pos s). field. lra. Qed.
  Lemma sin_a s : sin (atan (r * sin s / w s)) = r * sin s.
  Proof.
    rewrite sin_atan. unfold Rsqr. rewrite one_tan. pose proof (w_pos s). rewrite sqrt_inv, sqrt_square by lra. field. lra.
  Qed.
  Lemma cos_a s : cos (atan (r * sin s / w s)) = w s.
  Proof.
    rewrite cos_atan. unfold Rsqr. rewrite one_tan. pose proof (w_pos s). rewrite sqrt_inv, sqrt_square by lra. field. lra.
  Qed.
  Lemma third_side s : 1 + r * r + 2 * r * cos (ph s) = (w s + r * cos s) * (w s + r * cos s).
  Proof.
    unfold ph. rewrite cos_plus, sin_a, cos_a. pose proof (w_w s) as W. pose proof (sin2_cos2 s) as Q. unfold Rsqr in Q.
    replace (1 + r * r + 2 * r * (cos s * w s - sin s * (r * sin s))) with ((1 - r * r * (sin s * sin s)) + 2 * r * cos s * w s + r * r * (1 - sin s * sin s)) by ring.
    rewrite <- W. replace (1 - sin s * sin s) with (cos s * cos s) by lra. ring.
  Qed.
  Lemma wc_pos s : 0 < w s + r * cos s.
  Proof.
    pose proof (w_pos s) as P. pose proof (w_w s) as W. pose proof (sin2_cos2 s) as Q. unfold Rsqr in Q.
    destruct (Rle_or_lt 0 (r * cos s)); [lra|]. 
    assert (w s * w s > (r * cos s) * (r * cos s)). { rewrite W. replace (r * cos s * (r * cos s)) with (r * r * (cos s * cos s)) by ring. pose proof rr_lt. nra. }
    nra.
  Qed.
  Lemma ph_der s : is_derive ph s ((w s + r * cos s) / w s).
  Proof.
    unfold ph, w. pose proof (w_sq_pos s) as Q0. pose proof (w_pos s) as P. pose proof (w_w s) as W. unfold w in P, W.
    auto_derive; change (1 + - (r * r * (sin s * sin s))) with (1 - r * r * (sin s * sin s)).
    - repeat split; try lra.
    - pose proof (one_tan s) as O. unfold w in O. set (v := sqrt (1 - r * r * (sin s * sin s))) in *.
      replace (r * sin s * / v * (r * sin s * / v * 1)) with (r * sin s / v * (r * sin s / v)) by (unfold Rdiv; ring).
      rewrite O. rewrite Rinv_inv. clearbody v. generalize dependent (sin s). generalize (cos s). intros c sn _ W _.
      assert (E : r * r * (sn * sn) = 1 - v * v) by lra.
      transitivity (1 + r * c * (v * v + r * r * (sn * sn)) / v); [field; lra|]. rewrite E. field. lra.
  Qed.
  Lemma w_cont s : continuous w s.
  Proof. apply (Eint_cont (r * r) s rr_lt). Qed.
  Lemma ph_cont' s : continuous (fun s => (w s + r * cos s) / w s) s.
  Proof.
    pose proof (w_sq_pos s). pose proof (w_pos s) as P. unfold w in *.
    apply (ex_derive_continuous (K := R_AbsRing) (V := R_NormedModule)). auto_derive.
    change (1 + - (r * r * (sin s * sin s))) with (1 - r * r * (sin s * sin s)). repeat split; lra.
  Qed.
  Let f t := / sqrt (1 + r * r + 2 * r * cos t).
  Lemma fpos t : 0 < 1 + r * r + 2 * r * cos t.
  Proof. pose proof (COS_bound t). assert (- r <= r * cos t) by nra. assert (0 < (1 - r) * (1 - r)) by nra. nra. Qed.
  Lemma f_cont t : continuous f t.
  Proof.
    pose proof (fpos t). assert (0 < sqrt (1 + r * r + 2 * r * cos t)) by (apply sqrt_lt_R0; auto).
    apply (ex_derive_continuous (K := R_AbsRing) (V := R_NormedModule)). unfold f. auto_derive. repeat split; lra.
  Qed.
  Lemma landen : is_RInt f 0 PI (2 * Kell (r * r)).
  Proof.
    assert (A : is_RInt (fun s => scal ((w s + r * cos s) / w s) (f (ph s))) 0 PI (RInt f (ph 0) (ph PI))).
    { apply (is_RInt_comp f ph (fun s => (w s + r * cos s) / w s)).
      - intros x _. apply f_cont.
      - intros x _. split; [apply ph_der|apply ph_cont']. }
    assert (P0 : ph 0 = 0) by (unfold ph; rewrite sin_0; unfold Rdiv; rewrite Rmult_0_r, Rmult_0_l, atan_0; ring).
    assert (P1 : ph PI = PI) by (unfold ph; rewrite sin_PI; unfold Rdiv; rewrite Rmult_0_r, Rmult_0_l, atan_0; ring).
    rewrite P0, P1 in A.
    assert (B : is_RInt (fun s => / w s) 0 PI (RInt f 0 PI)).
    { eapply is_RInt_ext; [|exact A]. intros s _. cbn beta. pose proof (w_pos s). pose proof (wc_pos s). unfold scal, f. cbn. unfold mult. cbn.
      rewrite third_side, sqrt_square by lra. field. lra. }
    assert (C : RInt (fun s => / w s) 0 PI = 2 * Kell (r * r)).
    { assert (K1 := Kell_int (r * r) rr_lt).
      assert (KC : forall x, continuous (fun t => / sqrt (1 - r * r * (sin t * sin t))) x) by (intros x; apply Kint_cont, rr_lt).
      pose proof (RInt_reflect _ PI 0 (PI / 2) KC) as RR.
      rewrite <- (RInt_Chasles (V := R_CompleteNormedModule) (fun s => / w s) 0 (PI / 2) PI) by (apply cont_ex_RInt; exact KC).
      replace (PI - 0) with PI in RR by ring. replace (PI - PI / 2) with (PI / 2) in RR by field.
      change (RInt (fun s => / w s) 0 (PI / 2)) with (Kell (r * r)).
      assert (E2 : RInt (fun s => / w s) (PI / 2) PI = Kell (r * r)).
      { etransitivity; [symmetry; exact RR|]. apply (RInt_ext (V := R_CompleteNormedModule)). intros x _.
        replace (sin (PI - x)) with (sin x) by (rewrite sin_minus, sin_PI, cos_PI; ring). reflexivity. }
      rewrite E2. change (Kell (r * r) + Kell (r * r) = 2 * Kell (r * r)). ring. }
    rewrite <- C. rewrite (RInt_val _ _ _ _ B).
    apply cont_is_RInt. apply f_cont.
  Qed.
End Landen.

(** ** The coefficients of fKzt *)
Definition j2R (r : R) : R := 1 - (1 - r) * (1 - r) / ((1 + r) * (1 + r)).
Definition m1R (r m : R) : R := (sqrt (1 + m * m) + sqrt (r * r + m * m)) / (1 + r).
Definition m2R (r m : R) : R := (sqrt (1 + m * m) - sqrt (r * r + m * m)) / (1 + r).
Definition b1R (r m : R) : R := m1R r m * m1R r m - 1.
Definition b2R (r m : R) : R := 1 - m2R r m * m2R r m.
Lemma coef r m : 0 <= r -> 0 < r * r + m * m -> let p := sqrt (1 + m * m) in let q := sqrt (r * r + m * m) in
  0 < p /\ 0 < q /\ p * p = 1 + m * m /\ q * q = r * r + m * m /\
  j2R r = 4 * r / ((1 + r) * (1 + r)) /\
  b1R r m - b2R r m = 4 * (m * m - r) / ((1 + r) * (1 + r)) /\
  b1R r m * b2R r m = 4 * (m * m) / ((1 + r) * (1 + r)) /\
  b1R r m + b2R r m = 4 * p * q / ((1 + r) * (1 + r)).
Proof.
  intros hr hq p q. assert (P2 : p * p = 1 + m * m) by (apply sqrt_sqrt; nra). assert (Q2 : q * q = r * r + m * m) by (apply sqrt_sqrt; lra).
  assert (0 < p) by (apply sqrt_lt_R0; nra). assert (0 < q) by (apply sqrt_lt_R0; lra).
  repeat split; auto.
  - unfold j2R. field. lra.
  - unfold b1R, b2R, m1R, m2R. fold p q. transitivity ((2 * (p * p) + 2 * (q * q)) / ((1 + r) * (1 + r)) - 2); [field; lra|]. rewrite P2, Q2. field. lra.
  - unfold b1R, b2R, m1R, m2R. fold p q.
    transitivity ((2 * (p * p) + 2 * (q * q)) / ((1 + r) * (1 + r)) - 1 - (p * p - q * q) * (p * p - q * q) / ((1 + r) * (1 + r) * ((1 + r) * (1 + r)))); [field; lra|]. rewrite P2, Q2. field. lra.
  - unfold b1R, b2R, m1R, m2R. fold p q. field. lra.
Qed.
Lemma coef_sign r m : 0 < r < 1 -> m <> 0 -> 0 < b1R r m /\ 0 < b2R r m < 1 /\ 0 < j2R r < 1.
Proof.
  intros hr hm. assert (M : 0 < m * m) by (apply Rsq_lt; auto). destruct (coef r m ltac:(lra) ltac:(nra)) as (P & Q & P2 & Q2 & J & S & M12 & A). set (p := sqrt (1 + m * m)) in *. set (q := sqrt (r * r + m * m)) in *.
  assert (D : 0 < (1 + r) * (1 + r)) by nra.
  assert (B12 : 0 < b1R r m * b2R r m) by (rewrite M12; apply Rdiv_lt_0_compat; lra).
  assert (BS : 0 < b1R r m + b2R r m) by (rewrite A; apply Rdiv_lt_0_compat; nra).
  assert (B : 0 < b1R r m /\ 0 < b2R r m). { split; destruct (Rle_or_lt (b1R r m) 0); destruct (Rle_or_lt (b2R r m) 0); nra. }
  assert (PQ : q < p). { apply sqrt_lt_1_alt. nra. }
  assert (M2 : 0 < m2R r m). { unfold m2R. fold p q. apply Rdiv_lt_0_compat; lra. }
  assert (B2 : b2R r m < 1). { unfold b2R. nra. }
  repeat split; try tauto.
  - rewrite J. apply Rdiv_lt_0_compat; lra.
  - rewrite J. apply Rlt_div_l; [lra|]. assert (0 < (1 - r) * (1 - r)) by nra. lra.
Qed.

Definition second (m r t : R) : R := sqrt (D2 r t) / (D2 r t + m * m * (sin t * sin t)).
Lemma den_pos m r t : 0 <= r < 1 -> 0 < D2 r t + m * m * (sin t * sin t).
Proof. intros. pose proof (D2_pos r t H). pose proof (Rsq_pos m). pose proof (Rsq_pos (sin t)). nra. Qed.
Lemma second_cont m r t : 0 <= r < 1 -> continuous (second m r) t.
Proof.
  intros H. pose proof (D2_pos r t H) as P. pose proof (den_pos m r t H) as Q. apply (ex_derive_continuous (K := R_AbsRing) (V := R_NormedModule)).
  unfold second, D2 in *. auto_derive. change (1 + r * r + - (2 * r * cos t)) with (1 + r * r - 2 * r * cos t). repeat split; lra.
Qed.
Lemma integrand_cont m r t : 0 <= r < 1 -> continuous (expansion_integrand m r) t.
Proof.
  intros H. pose proof (D2_pos r t H) as P. pose proof (den_pos m r t H) as Q. apply (ex_derive_continuous (K := R_AbsRing) (V := R_NormedModule)).
  unfold expansion_integrand, D2 in *. assert (0 < sqrt (1 + r * r - 2 * r * cos t)) by (apply sqrt_lt_R0; auto).
  auto_derive. change (1 + r * r + - (2 * r * cos t)) with (1 + r * r - 2 * r * cos t). split; [lra|]. split; [|auto]. apply Rgt_not_eq, Rmult_lt_0_compat; lra.
Qed.
(** partial fractions in sin^2 *)
Lemma second_fold m r ph : 0 < r < 1 -> m <> 0 ->
  second m r (-2 * ph + PI) = (1 + r) / (4 * sqrt (1 + m * m) * sqrt (r * r + m * m)) *
    ((b1R r m + j2R r) * / ((1 - - b1R r m * (sin ph * sin ph)) * sqrt (1 - j2R r * (sin ph * sin ph)))
     + (b2R r m - j2R r) * / ((1 - b2R r m * (sin ph * sin ph)) * sqrt (1 - j2R r * (sin ph * sin ph)))).
Proof.
  intros hr hm. destruct (coef_sign r m hr hm) as (B1 & B2 & J). assert (M : 0 < m * m) by (apply Rsq_lt; auto).
  destruct (coef r m ltac:(lra) ltac:(nra)) as (P & Q & P2 & Q2 & J' & S & M12 & A). set (p := sqrt (1 + m * m)) in *. set (q := sqrt (r * r + m * m)) in *.
  unfold second, D2. replace (-2 * ph + PI) with (PI - 2 * ph) by ring. rewrite Rtrigo_facts.cos_pi_minus.
  replace (sin (PI - 2 * ph)) with (sin (2 * ph)) by (rewrite sin_minus, sin_PI, cos_PI; ring).
  rewrite sin_2a, cos_2a. pose proof (sin2_cos2 ph) as SC. unfold Rsqr in SC. 
  assert (C : cos ph * cos ph = 1 - sin ph * sin ph) by lra.
  pose proof (sin_sq_le ph) as ST.
  replace (2 * sin ph * cos ph * (2 * sin ph * cos ph)) with (4 * (sin ph * sin ph) * (cos ph * cos ph)) by ring. rewrite C.
  set (t := sin ph * sin ph) in *. clearbody t. clear C SC.
  assert (U : 0 < (1 + r) * (1 + r)) by nra.
  set (b1 := b1R r m) in *. set (b2 := b2R r m) in *. set (j2 := j2R r) in *.
  assert (D : 1 + r * r - 2 * r * - (1 - t - t) = (1 + r) * (1 + r) * (1 - j2 * t)) by (rewrite J'; field; lra).
  rewrite D. assert (DJ : 0 < 1 - j2 * t) by nra. rewrite sqrt_mult by nra. rewrite sqrt_square by lra.
  assert (X1 : 0 < 1 + b1 * t) by nra. assert (X2 : 0 < 1 - b2 * t) by nra.
  assert (E : (1 + r) * (1 + r) * (1 - j2 * t) + m * m * (4 * t * (1 - t)) = (1 + r) * (1 + r) * ((1 + b1 * t) * (1 - b2 * t))).
  { replace ((1 + b1 * t) * (1 - b2 * t)) with (1 + (b1 - b2) * t - b1 * b2 * (t * t)) by ring. rewrite S, M12, J'. field. lra. }
  rewrite E. set (w := sqrt (1 - j2 * t)). assert (W : 0 < w) by (apply sqrt_lt_R0; auto). assert (WW : w * w = 1 - j2 * t) by (apply sqrt_sqrt; lra).
  assert (A' : 4 * p * q = (1 + r) * (1 + r) * (b1 + b2)) by (rewrite A; field; lra). rewrite A'.
  transitivity ((w * w) / ((1 + r) * (1 + b1 * t) * (1 - b2 * t) * w)); [field; repeat split; lra|]. rewrite WW. field. repeat split; lra.
Qed.
Lemma second_int m r : 0 < r < 1 -> m <> 0 -> is_RInt (second m r) 0 PI
  ((1 + r) / (2 * sqrt (1 + m * m) * sqrt (r * r + m * m)) *
   ((b1R r m + j2R r) * Piell (- b1R r m) (j2R r) + (b2R r m - j2R r) * Piell (b2R r m) (j2R r))).
Proof.
  intros hr hm. destruct (coef_sign r m hr hm) as (B1 & B2 & J). assert (M : 0 < m * m) by (apply Rsq_lt; auto).
  destruct (coef r m ltac:(lra) ltac:(nra)) as (P & Q & _).
  set (p := sqrt (1 + m * m)) in *. set (q := sqrt (r * r + m * m)) in *.
  assert (A1 := Piell_int (- b1R r m) (j2R r) ltac:(lra) ltac:(lra)). assert (A2 := Piell_int (b2R r m) (j2R r) ltac:(lra) ltac:(lra)).
  assert (C : forall x, continuous (second m r) x) by (intros; apply second_cont; lra).
  assert (L := cont_is_RInt (second m r) 0 PI C).
  replace 0 with (-2 * (PI / 2) + PI) in L at 1 by field. replace PI with (-2 * 0 + PI) in L at 3 by ring.
  apply is_RInt_lin in L. apply is_RInt_swap in L.
  assert (K := is_RInt_scal _ _ _ (-2 * ((1 + r) / (4 * p * q))) _ (is_RInt_plus _ _ _ _ _ _ (is_RInt_scal _ _ _ (b1R r m + j2R r) _ A1) (is_RInt_scal _ _ _ (b2R r m - j2R r) _ A2))).
  match type of K with is_RInt _ _ _ ?v => assert (K' : is_RInt (fun t => -2 * second m r (-2 * t + PI)) 0 (PI / 2) v) end.
  { eapply is_RInt_ext; [|exact K]. intros t _. cbn beta. rewrite second_fold by auto. fold p q. rsc. unfold plus. cbn. eqR. ring. }
  pose proof (RInt_val _ _ _ _ K') as V1. pose proof (RInt_val _ _ _ _ L) as V2. rewrite V1 in V2.
  match goal with |- is_RInt _ _ _ ?v => replace v with (RInt (second m r) 0 PI) end; [apply cont_is_RInt; auto|].
  replace (-2 * (PI / 2) + PI) with 0 in V2 by field. replace (-2 * 0 + PI) with PI in V2 by ring.
  revert V2. generalize (RInt (second m r) 0 PI) (Piell (- b1R r m) (j2R r)) (Piell (b2R r m) (j2R r)). intros i x y V2.
  change (-2 * ((1 + r) / (4 * p * q)) * ((b1R r m + j2R r) * x + (b2R r m - j2R r) * y) = - i) in V2.
  apply (Rmult_eq_reg_l (-1)); [|lra]. replace (-1 * i) with (- i) by ring. rewrite <- V2. field. lra.
Qed.

Lemma integrand_split m r t : 0 <= r < 1 -> m <> 0 -> expansion_integrand m r t = / (m * m) * (/ sqrt (D2 r t) - second m r t).
Proof.
  intros hr hm. pose proof (D2_pos r t hr) as P. pose proof (den_pos m r t hr) as Q. unfold expansion_integrand, second.
  assert (S : 0 < sqrt (D2 r t)) by (apply sqrt_lt_R0; auto). assert (SS : sqrt (D2 r t) * sqrt (D2 r t) = D2 r t) by (apply sqrt_sqrt; lra).
  set (w := sqrt (D2 r t)) in *. set (e := sin t * sin t) in *.
  transitivity (/ (m * m) * ((D2 r t + m * m * e - w * w) / (w * (D2 r t + m * m * e)))); [rewrite SS; field; lra|]. field. lra.
Qed.
Lemma first_int r : 0 <= r < 1 -> is_RInt (fun t => / sqrt (D2 r t)) 0 PI (2 * Kell (r * r)).
Proof.
  intros hr. assert (C : forall x, continuous (fun t => / sqrt (D2 r t)) x).
  { intros t. pose proof (D2_pos r t hr) as P. apply (ex_derive_continuous (K := R_AbsRing) (V := R_NormedModule)). unfold D2 in *.
    assert (0 < sqrt (1 + r * r - 2 * r * cos t)) by (apply sqrt_lt_R0; auto).
    auto_derive. change (1 + r * r + - (2 * r * cos t)) with (1 + r * r - 2 * r * cos t). repeat split; lra. }
  pose proof (RInt_reflect _ PI 0 PI C) as RR. replace (PI - PI) with 0 in RR by ring. replace (PI - 0) with PI in RR by ring.
  rewrite <- (RInt_val _ _ _ _ (landen r hr)).
  match goal with |- is_RInt _ _ _ ?v => replace v with (RInt (fun t => / sqrt (D2 r t)) 0 PI) end; [apply cont_is_RInt; auto|].
  etransitivity; [symmetry; exact RR|]. apply RInt_ext. intros x _. rewrite D2_sym. reflexivity.
Qed.
Lemma integrand_int m r : 0 < r < 1 -> m <> 0 -> RInt (expansion_integrand m r) 0 PI = / (m * m) * (2 * Kell (r * r) -
   (1 + r) / (2 * sqrt (1 + m * m) * sqrt (r * r + m * m)) *
   ((b1R r m + j2R r) * Piell (- b1R r m) (j2R r) + (b2R r m - j2R r) * Piell (b2R r m) (j2R r))).
Proof.
  intros hr hm. apply RInt_val.
  assert (K := is_RInt_scal _ _ _ (/ (m * m)) _ (is_RInt_minus _ _ _ _ _ _ (first_int r ltac:(lra)) (second_int m r hr hm))).
  eapply is_RInt_ext; [|exact K]. intros t _. rewrite integrand_split by (auto; lra). reflexivity.
Qed.
(** ** m = 0 *)
Lemma straight_int r : 0 < r < 1 -> let k2 := 4 * r / ((r + 1) * (r + 1)) in
  RInt (expansion_integrand 0 r) 0 PI = (1 + r) / (2 * (r * r)) * ((2 - k2) * Kell k2 - 2 * Eell k2).
Proof.
  intros hr k2. assert (K0 : 0 < k2) by (apply Rdiv_lt_0_compat; nra). assert (K1 : k2 < 1).
  { apply Rlt_div_l; [nra|]. assert (0 < (1 - r) * (1 - r)) by nra. lra. }
  assert (C : forall x, continuous (expansion_integrand 0 r) x) by (intros; apply integrand_cont; lra).
  assert (L := cont_is_RInt (expansion_integrand 0 r) 0 PI C).
  replace 0 with (-2 * (PI / 2) + PI) in L at 2 by field. replace PI with (-2 * 0 + PI) in L at 3 by ring.
  apply is_RInt_lin in L. apply is_RInt_swap in L.
  assert (K := is_RInt_scal _ _ _ (- 8 / ((1 + r) * (1 + r) * (1 + r)) / (k2 * k2)) _ (is_RInt_plus _ _ _ _ _ _ (is_RInt_scal _ _ _ (k2 - 1) _ (D3_int k2 K1))
    (is_RInt_minus _ _ _ _ _ _ (is_RInt_scal _ _ _ (2 - k2) _ (Kell_int k2 K1)) (Eell_int k2 K1)))).
  match type of K with is_RInt _ _ _ ?v => assert (K' : is_RInt (fun t => -2 * expansion_integrand 0 r (-2 * t + PI)) 0 (PI / 2) v) end.
  { eapply is_RInt_ext; [|exact K]. intros t _. cbn beta. rsc. unfold plus, minus, opp. cbn. unfold plus. cbn. eqR.
    unfold expansion_integrand, D2, D3. replace (-2 * t + PI) with (PI - 2 * t) by ring. rewrite Rtrigo_facts.cos_pi_minus.
    replace (sin (PI - 2 * t)) with (sin (2 * t)) by (rewrite sin_minus, sin_PI, cos_PI; ring).
    rewrite sin_2a, cos_2a. pose proof (sin2_cos2 t) as SC. unfold Rsqr in SC. 
    assert (CC : cos t * cos t = 1 - sin t * sin t) by lra. pose proof (sin_sq_le t) as ST.
    replace (2 * sin t * cos t * (2 * sin t * cos t)) with (4 * (sin t * sin t) * (cos t * cos t)) by ring. rewrite CC.
    set (s := sin t * sin t) in *. clearbody s. clear CC SC.
    assert (D : 1 + r * r - 2 * r * - (1 - s - s) = (1 + r) * (1 + r) * (1 - k2 * s)) by (unfold k2; field; lra).
    rewrite D. assert (DJ : 0 < 1 - k2 * s) by nra. rewrite sqrt_mult by nra. rewrite sqrt_square by lra.
    assert (W : 0 < sqrt (1 - k2 * s)) by (apply sqrt_lt_R0; auto). assert (WW : sqrt (1 - k2 * s) * sqrt (1 - k2 * s) = 1 - k2 * s) by (apply sqrt_sqrt; lra).
    set (w := sqrt (1 - k2 * s)) in *. 
    replace ((k2 - 1) * / ((1 - k2 * s) * w) + ((2 - k2) * / w + - w)) with ((k2 - 1 + (2 - k2) * (1 - k2 * s) - (w * w) * (1 - k2 * s)) / ((1 - k2 * s) * w)) by (field; lra).
    rewrite WW. field. repeat split; lra. }
  pose proof (RInt_val _ _ _ _ K') as V1. pose proof (RInt_val _ _ _ _ L) as V2. rewrite V1 in V2.
  replace (-2 * (PI / 2) + PI) with 0 in V2 by field. replace (-2 * 0 + PI) with PI in V2 by ring.
  revert V2. generalize (RInt (expansion_integrand 0 r) 0 PI) (Kell k2) (Eell k2). intros i x y V2.
  change (- 8 / ((1 + r) * (1 + r) * (1 + r)) / (k2 * k2) * ((k2 - 1) * (y / (1 - k2)) + ((2 - k2) * x + - y)) = - i) in V2.
  apply (Rmult_eq_reg_l (-1)); [|lra]. replace (-1 * i) with (- i) by ring. rewrite <- V2.
  transitivity (- 8 / ((1 + r) * (1 + r) * (1 + r)) / (k2 * k2) * ((2 - k2) * x - 2 * y)); [field; repeat split; lra|].
  assert (E : k2 * k2 = 16 * (r * r) / ((1 + r) * (1 + r) * ((1 + r) * (1 + r)))) by (unfold k2; field; lra). rewrite E. field. lra.
Qed.

(** ** The model computes these formulas *)
Lemma trap0_X n T (f : X -> X) (g : R -> R) : (2 <= n)%nat -> (forall t, f (Fin t) = Fin (g t)) ->
  trapz (N := XN) (map f (linspace (N := XN) (Fin 0) (Fin T) n)) (linspace (N := XN) (Fin 0) (Fin T) n) = Fin (trapezoid g 0 T n).
Proof.
  intros Hn H. rewrite linspace_X. nT. rewrite (map_fin f g) by auto. rewrite trapz_X. rewrite <- trapezoid_trapz by auto.
  assert (E : map (fun t => 0 + t) (linspace (N := RN) 0 T n) = linspace (N := RN) 0 T n).
  { rewrite <- (map_id (linspace (N := RN) 0 T n)) at 2. apply map_ext. intros; cbn; ring. }
  rewrite E. reflexivity.
Qed.
Lemma coef_X r m : 0 <= r -> 
  fK_b1 (N := XN) (Fin r) (Fin m) = Fin (b1R r m) /\ fK_b2 (N := XN) (Fin r) (Fin m) = Fin (b2R r m) /\ fK_j2 (N := XN) (Fin r) = Fin (j2R r).
Proof.
  intros hr. assert (A : 0 <= m * m) by apply Rsq_pos. assert (B : 0 <= r * r) by apply Rsq_pos.
  assert (0 < (1 + r) * (1 + r)) by nra.
  unfold fK_b1, fK_b2, fK_j2, fK_k2, fK_m1, fK_m2. xn. rewrite !xsqrt_fin by lra. xn. rewrite !xdiv_fin by lra. xn. repeat split; reflexivity.
Qed.
Definition KztR (m r P1 P2 : R) : R := 2 * sqrt (1 + m * m) * r / (m * PI) * Kell (r * r)
  - r * (r + 1) / (2 * m * PI * sqrt (m * m + r * r)) * ((b1R r m + j2R r) * P1 + (b2R r m - j2R r) * P2).
Definition KxitR (m r P1 P2 : R) : R := 2 * (1 + m * m) * r / (m * m * PI) * Kell (r * r)
  - r * (r + 1) * sqrt (m * m + 1) / (2 * (m * m) * PI * sqrt (m * m + r * r)) * ((1 + j2R r) * P1 + (b2R r m - j2R r) * P2).
Definition eps_axis : R := 1 / 10000000.
Lemma Kzt_pt_X m r P1 P2 : 0 < r < 1 -> m <> 0 -> Kzt_pt (N := XN) (Fin m) (Fin r) (Fin P1) (Fin P2) = Fin (KztR m r P1 P2).
Proof.
  intros hr hm. assert (M : 0 < m * m) by (apply Rsq_lt; auto). assert (rr : 0 < r * r < 1) by nra. pose proof PI_RGT_0.
  assert (0 < sqrt (m * m + r * r)) by (apply sqrt_lt_R0; lra).
  unfold Kzt_pt. destruct (coef_X r m ltac:(lra)) as (-> & -> & ->). xn. rewrite !xsqrt_fin by lra. xn. rewrite xellipk_fin by lra.
  assert (m * PI <> 0) by (apply Rmult_integral_contrapositive_currified; lra).
  rewrite !xdiv_fin; [reflexivity| |lra]. apply Rmult_integral_contrapositive_currified; [|lra]. replace (2 * m * PI) with (2 * (m * PI)) by ring. lra.
Qed.
Lemma EPS_X : EPS_AXIS (N := XN) = Fin eps_axis. Proof. reflexivity. Qed.
Lemma Kxit_pt_X m r P1 P2 : 0 < r < 1 -> m <> 0 -> Kxit_pt (N := XN) (Fin m) (Fin r) (Fin P1) (Fin P2) = Fin (if Rltb eps_axis r then KxitR m r P1 P2 else 0).
Proof.
  intros hr hm. assert (M : 0 < m * m) by (apply Rsq_lt; auto). assert (rr : 0 < r * r < 1) by nra. pose proof PI_RGT_0.
  assert (0 < sqrt (m * m + r * r)) by (apply sqrt_lt_R0; lra).
  unfold Kxit_pt. rewrite EPS_X. change (nlt XN (Fin eps_axis) (Fin r)) with (Rltb eps_axis r). destruct (Rltb eps_axis r); [|reflexivity].
  destruct (coef_X r m ltac:(lra)) as (_ & -> & ->). xn. rewrite !xsqrt_fin by lra. xn. rewrite xellipk_fin by lra.
  assert (0 < m * m * PI) by (apply Rmult_lt_0_compat; lra).
  rewrite !xdiv_fin; [reflexivity| |lra]. apply Rgt_not_eq, Rmult_lt_0_compat; [|lra]. replace (2 * (m * m) * PI) with (2 * (m * m * PI)) by ring. lra.
Qed.
Lemma Kxit0_pt_X r : 0 < r < 1 -> Kxit0_pt (N := XN) (Fin r) = Fin (if Rltb eps_axis r then Kxit_exact 0 r else 0).
Proof.
  intros hr. unfold Kxit0_pt. rewrite EPS_X. change (nlt XN (Fin eps_axis) (Fin r)) with (Rltb eps_axis r).
  pose proof PI_RGT_0. assert (R1 : 0 < (r + 1) * (r + 1)) by nra. set (k2 := 4 * r / ((r + 1) * (r + 1))).
  assert (K0 : 0 < k2) by (apply Rdiv_lt_0_compat; nra). assert (K1 : k2 < 1).
  { apply Rlt_div_l; [nra|]. assert (0 < (1 - r) * (1 - r)) by nra. lra. }
  assert (SK : 0 < sqrt k2) by (apply sqrt_lt_R0; auto).
  assert (E1 : ndiv XN (nmul XN (nZ XN 4) (Fin r)) (sq (N := XN) (nadd XN (Fin r) (nZ XN 1))) = Fin k2) by (xn; rewrite xdiv_fin by lra; reflexivity).
  nT. rewrite E1. destruct (Rltb eps_axis r); [|reflexivity].
  assert (RI : 0 < 1 / r) by (apply Rdiv_lt_0_compat; lra).
  xn. rewrite xellipk_fin by auto. rewrite xellipe_fin by lra. rewrite (xsqrt_fin k2) by lra. xn. rewrite (xdiv_fin 1 r) by lra. rewrite (xsqrt_fin (1 / r)) by lra. rewrite !xdiv_fin by lra. xn.
  f_equal. unfold Kxit_exact. rewrite straight_int by auto. fold k2.
  assert (SR : 0 < sqrt r) by (apply sqrt_lt_R0; lra). assert (SR2 : sqrt r * sqrt r = r) by (apply sqrt_sqrt; lra).
  assert (E2 : sqrt (1 / r) = 1 / sqrt r) by (rewrite sqrt_div_alt, sqrt_1 by lra; reflexivity).
  assert (E3 : sqrt k2 = 2 * sqrt r / (r + 1)).
  { unfold k2. rewrite sqrt_div_alt by lra. rewrite sqrt_square by lra. replace (4 * r) with ((2 * sqrt r) * (2 * sqrt r)) by (replace (2 * sqrt r * (2 * sqrt r)) with (4 * (sqrt r * sqrt r)) by ring; lra). rewrite sqrt_square by lra. reflexivity. }
  rewrite E2, E3. set (a := Kell k2). set (b := Eell k2). set (v := sqrt r) in *.
  transitivity ((r + 1) / (2 * PI * (v * v)) * ((2 - k2) * a - 2 * b)); [field; lra|]. rewrite SR2. field. lra.
Qed.
Lemma fins {A} (Q : A -> R -> Prop) (l : list A) (vs : list X) : Forall2 (fun a v => exists q, v = Fin q /\ Q a q) l vs -> exists qs, vs = map Fin qs /\ Forall2 Q l qs.
Proof.
  induction 1 as [|a v l vs (q & E & H) _ (qs & E' & H')]; [exists []; split; [reflexivity|constructor]|].
  exists (q :: qs). subst. split; [reflexivity|constructor; auto].
Qed.
Definition unit_radii (rs : list R) : Prop := Forall (fun r => 0 < r < 1) rs.
Lemma Pis PIb P m rs : third PIb P -> unit_radii rs -> m <> 0 -> exists l1 l2,
  fK_Pi1 (N := XN) PIb (Fin m) (map Fin rs) = map Fin l1 /\ fK_Pi2 (N := XN) PIb (Fin m) (map Fin rs) = map Fin l2 /\
  Forall2 (fun r q => P (- b1R r m) (j2R r) q) rs l1 /\ Forall2 (fun r q => P (b2R r m) (j2R r) q) rs l2.
Proof.
  intros HP HR hm. 
  assert (G : forall (f : X -> X * X) (g : R -> R * R), (forall r, 0 < r < 1 -> f (Fin r) = F2 (g r) /\ fst (g r) < 1 /\ snd (g r) < 1) ->
     exists l, PIb (map f (map Fin rs)) = map Fin l /\ Forall2 (fun r q => P (fst (g r)) (snd (g r)) q) rs l).
  { intros f g HF. unfold unit_radii in HR. rewrite Forall_forall in HR.
    assert (E : map f (map Fin rs) = map F2 (map g rs)). { rewrite !map_map. apply map_ext_in. intros r Hr. apply HF, HR, Hr. }
    rewrite E. assert (H1 : Forall (fun p : R * R => snd p < 1) (map g rs)) by (rewrite Forall_map; apply Forall_forall; intros r Hr; apply HF, HR, Hr).
    pose proof (HP _ H1) as H2. apply Forall2_map_l in H2.
    apply (fins (fun r q => P (fst (g r)) (snd (g r)) q)).
    eapply Forall2_in; [|exact H2]. cbn beta. intros r v Hr Hv. apply Hv. apply HF, HR, Hr. }
  destruct (G (fun r => (nopp XN (fK_b1 (N := XN) r (Fin m)), fK_j2 (N := XN) r)) (fun r => (- b1R r m, j2R r))) as (l1 & E1 & H1).
  { intros r hr. destruct (coef_X r m ltac:(lra)) as (-> & _ & ->). destruct (coef_sign r m hr hm). cbn [fst snd]. repeat split; lra. }
  destruct (G (fun r => (fK_b2 (N := XN) r (Fin m), fK_j2 (N := XN) r)) (fun r => (b2R r m, j2R r))) as (l2 & E2 & H2).
  { intros r hr. destruct (coef_X r m ltac:(lra)) as (_ & -> & ->). destruct (coef_sign r m hr hm). cbn [fst snd]. repeat split; lra. }
  exists l1, l2. repeat split; auto.
Qed.
Lemma gens PIb P m rs : third PIb P -> unit_radii rs -> m <> 0 -> exists qs : list (R * R),
  Forall2 (fun r q => P (- b1R r m) (j2R r) (fst q) /\ P (b2R r m) (j2R r) (snd q)) rs qs /\
  Kzt_gen (N := XN) PIb (Fin m) (map Fin rs) = map Fin (map2 (fun r q => KztR m r (fst q) (snd q)) rs qs) /\
  Kxit_gen (N := XN) PIb (Fin m) (map Fin rs) = map Fin (map2 (fun r q => if Rltb eps_axis r then KxitR m r (fst q) (snd q) else 0) rs qs).
Proof.
  intros HP HR hm. destruct (Pis PIb P m rs HP HR hm) as (l1 & l2 & E1 & E2 & H1 & H2).
  unfold Kzt_gen, Kxit_gen. rewrite E1, E2. change (neqb XN (Fin m) (nZ XN 0)) with (Reqb m 0).
  assert (RQ : Reqb m 0 = false) by (apply Reqb_false; auto). rewrite RQ. clear E1 E2 RQ HP.
  exists (map2 pair l1 l2). revert l2 H2 HR. induction H1 as [|r q1 rs l1 A _ IH]; intros l2 H2 HR; inversion H2 as [|? q2 ? l2' B C]; subst; [repeat split; constructor|].
  inversion HR as [|? ? hr HR']; subst. destruct (IH _ C HR') as (I1 & I2 & I3). cbn [map2 map].
  split; [constructor; auto|]. cbn [fst snd]. rewrite Kzt_pt_X, Kxit_pt_X by auto. split; f_equal; auto.
Qed.
Lemma KztR_exact m r : 0 < r < 1 -> m <> 0 -> KztR m r (Piell (- b1R r m) (j2R r)) (Piell (b2R r m) (j2R r)) = Kzt_exact m r.
Proof.
  intros hr hm. unfold KztR, Kzt_exact. rewrite integrand_int by auto. assert (M : 0 < m * m) by (apply Rsq_lt; auto).
  rewrite (Rplus_comm (m * m) (r * r)). destruct (coef r m ltac:(lra) ltac:(nra)) as (P & Q & _). pose proof PI_RGT_0. field. lra.
Qed.
(** the error in Kxit: the coefficient b1 has been overwritten by a mask (VortexCylinderSkewed.py:436) *)
Definition Kxit_defect (m r P1 : R) : R := r * (r + 1) * sqrt (1 + m * m) / (2 * (m * m) * PI * sqrt (r * r + m * m)) * (b1R r m - 1) * P1.
Lemma KxitR_defect m r P1 P2 : 0 < r < 1 -> m <> 0 -> KxitR m r P1 P2 = KztR m r P1 P2 * sqrt (1 + m * m) / m + Kxit_defect m r P1.
Proof.
  intros hr hm. unfold KztR, KxitR, Kxit_defect. assert (M : 0 < m * m) by (apply Rsq_lt; auto).
  rewrite (Rplus_comm (m * m) (r * r)), (Rplus_comm (m * m) 1). destruct (coef r m ltac:(lra) ltac:(nra)) as (P & Q & P2' & _). pose proof PI_RGT_0.
  set (p := sqrt (1 + m * m)) in *. rewrite <- P2'. field. lra.
Qed.
Lemma Piell_pos n m : n < 1 -> m < 1 -> 0 < Piell n m.
Proof.
  intros hn hm. unfold Piell. apply RInt_gt_0; [pose proof PI_RGT_0; lra| |].
  - intros x _. pose proof (dm_pos n x hn). pose proof (dm_pos m x hm). apply Rinv_0_lt_compat, Rmult_lt_0_compat; auto. apply sqrt_lt_R0; auto.
  - intros x _. apply Pi_cont; auto.
Qed.
Lemma defect_zero m r P1 : 0 < r < 1 -> m <> 0 -> Kxit_defect m r P1 = 0 <-> b1R r m = 1 \/ P1 = 0.
Proof.
  intros hr hm. unfold Kxit_defect. assert (M : 0 < m * m) by (apply Rsq_lt; auto). pose proof PI_RGT_0.
  destruct (coef r m ltac:(lra) ltac:(nra)) as (P & Q & _). set (c := r * (r + 1) * sqrt (1 + m * m) / _).
  assert (C : 0 < c). { unfold c. apply Rdiv_lt_0_compat; (apply Rmult_lt_0_compat; [|lra]); [apply Rmult_lt_0_compat; lra|]. apply Rmult_lt_0_compat; lra. }
  split.
  - intros Z. apply Rmult_integral in Z. destruct Z as [Z|Z]; [left|right; auto]. apply Rmult_integral in Z. lra.
  - intros [-> | ->]; ring.
Qed.

(** C69 (i): with an exact third-kind integral the first output of fKzt is Coleman's integral, at every radius 0<r<1 *)
Theorem C69_Kzt_is_coleman : forall PIb, third PIb exact3 -> forall m rs nout, m <> 0 -> unit_radii rs -> (1 <= nout <= 3)%nat ->
  exists rest, fKzt_gen (N := XN) PIb (map Fin rs) (Fin m) nout = Ok (map (fun r => Fin (Kzt_exact m r)) rs :: rest).
Proof.
  intros PIb HP m rs nout hm HR hn. destruct (gens PIb exact3 m rs HP HR hm) as (qs & HQ & E & _).
  assert (E' : Kzt_gen (N := XN) PIb (Fin m) (map Fin rs) = map (fun r => Fin (Kzt_exact m r)) rs).
  { rewrite E. clear - HQ HR hm. induction HQ as [|r q rs qs [A B] _ IH]; [reflexivity|]. inversion HR; subst. cbn [map2 map]. f_equal; [|apply IH; auto].
    f_equal. unfold exact3 in *. rewrite A, B. apply KztR_exact; auto. }
  unfold fKzt_gen. change (neqb XN (Fin m) (nZ XN 0)) with (Reqb m 0).
  assert (RQ : Reqb m 0 = false) by (apply Reqb_false; auto). rewrite RQ.
  assert (NL : Nat.leb nout 3 = true) by (apply Nat.leb_le; lia). rewrite NL.
  nT. rewrite E'. destruct nout as [|k]; [lia|]. eexists. reflexivity.
Qed.
(** C69 (ii): the numerical outputs are the trapezoidal sums of the exact integrand and satisfy the relation exactly *)
Lemma Kzt_num_X m r : 0 < r < 1 -> m <> 0 -> Kzt_num_pt (N := XN) (Fin m) (Fin r) = Fin (r * m * sqrt (1 + m * m) / PI * trapezoid (expansion_integrand m r) 0 PI 1000).
Proof.
  intros hr hm. unfold Kzt_num_pt. assert (M : 0 < m * m) by (apply Rsq_lt; auto). pose proof PI_RGT_0 as hpi.
  change (npi XN) with (Fin PI). change (nZ XN 0) with (Fin 0).
  rewrite (trap0_X 1000 PI _ (fun t => - (m * m) * expansion_integrand m r t)); [|lia|].
  - xn. rewrite xsqrt_fin by lra. xn. rewrite !xdiv_fin by lra. xn. rewrite xdiv_fin by lra. xn. f_equal. rewrite trapezoid_scal. field. lra.
  - intros t. pose proof (D2_pos r t ltac:(lra)) as P. pose proof (den_pos m r t ltac:(lra)) as Q. rewrite integrand_split by (auto; lra). unfold second, D2 in *.
    assert (0 < sqrt (1 + r * r - 2 * r * cos t)) by (apply sqrt_lt_R0; auto).
    xn. replace (1 - 2 * r * cos t + r * r) with (1 + r * r - 2 * r * cos t) by ring. rewrite !xsqrt_fin by lra. rewrite !xdiv_fin by lra. xn. f_equal. field. lra.
Qed.
Lemma trapezoid_half (f : R -> R) n T : trapezoid (fun t => f (2 * t)) 0 (T / 2) n = / 2 * trapezoid f 0 T n.
Proof.
  destruct (Nat.eq_dec (n - 1) 0) as [E|E]; [unfold trapezoid; rewrite E; cbn; ring|].
  assert (hn : INR (n - 1) <> 0) by (apply not_0_INR; auto).
  unfold trapezoid. induction (seq 0 (n - 1)) as [|i l IH]; [cbn; ring|]. cbn [map fold_right] in *. rewrite IH.
  replace (2 * (0 + INR i * (T / 2 / INR (n - 1)))) with (0 + INR i * (T / INR (n - 1))) by (field; auto).
  replace (2 * (0 + INR (S i) * (T / 2 / INR (n - 1)))) with (0 + INR (S i) * (T / INR (n - 1))) by (field; auto). field. auto.
Qed.
Lemma Kxit_num_X m r : 0 < r < 1 -> Kxit_num_pt (N := XN) (Fin m) (Fin r) = Fin (r * (1 + m * m) / PI * trapezoid (expansion_integrand m r) 0 PI 1000).
Proof.
  intros hr. unfold Kxit_num_pt. pose proof PI_RGT_0 as hpi. assert (M : 0 <= m * m) by apply Rsq_pos.
  assert (E0 : ndiv XN (npi XN) (nZ XN 2) = Fin (PI / 2)) by (cbn [ndiv npi nZ XN]; rewrite xdiv_fin by lra; reflexivity).
  change (nZ XN 0) with (Fin 0). nT. rewrite E0.
  rewrite (trap0_X 1000 (PI / 2) _ (fun t => (fun s => (1 + m * m) * expansion_integrand m r s) (2 * t))); [|lia|].
  - xn. rewrite xdiv_fin by lra. xn. f_equal. rewrite (trapezoid_half (fun s => (1 + m * m) * expansion_integrand m r s)), trapezoid_scal. field. lra.
  - intros t. pose proof (D2_pos r (2 * t) ltac:(lra)) as P. pose proof (den_pos m r (2 * t) ltac:(lra)) as Q.
    unfold expansion_integrand. assert (S : 0 < sqrt (D2 r (2 * t))) by (apply sqrt_lt_R0; auto).
    assert (A : (1 + r) * (1 + r) - 4 * r * (cos t * cos t) = D2 r (2 * t)).
    { unfold D2. rewrite cos_2a_cos. ring. }
    assert (B : (r - cos (2 * t)) * (r - cos (2 * t)) * (cos (atan m) * cos (atan m)) + sin (2 * t) * sin (2 * t) = (D2 r (2 * t) + m * m * (sin (2 * t) * sin (2 * t))) / (1 + m * m)).
    { assert (cos (atan m) * cos (atan m) = / (1 + m * m)) as ->.
      { rewrite cos_atan. unfold Rsqr. replace (1 / sqrt (1 + m * m) * (1 / sqrt (1 + m * m))) with (/ (sqrt (1 + m * m) * sqrt (1 + m * m))) by (field; apply Rgt_not_eq, sqrt_lt_R0; lra). rewrite sqrt_sqrt by lra. reflexivity. }
      unfold D2. pose proof (sin2_cos2 (2 * t)) as SC. unfold Rsqr in SC. set (c := cos (2 * t)) in *. set (s := sin (2 * t)) in *.
      replace (1 + r * r - 2 * r * c) with ((s * s + c * c) + r * r - 2 * r * c) by lra. field. lra. }
    xn. rewrite A, B. rewrite xsqrt_fin by lra. xn. rewrite xdiv_fin; [f_equal; field; lra|].
    apply Rgt_not_eq, Rmult_lt_0_compat; auto. apply Rdiv_lt_0_compat; lra.
Qed.
Theorem C69_numerical_outputs_agree : forall PIb m rs, m <> 0 -> unit_radii rs ->
  exists Kz Kx, fKzt_gen (N := XN) PIb (map Fin rs) (Fin m) 3 = Ok [Kzt_gen (N := XN) PIb (Fin m) (map Fin rs); map (fun r => Fin (Kz r)) rs; map (fOye (N := XN)) (map Fin rs)] /\
    fKxit_gen (N := XN) PIb (map Fin rs) (Fin m) = Ok (Kxit_gen (N := XN) PIb (Fin m) (map Fin rs), map (fun r => Fin (Kx r)) rs, map (fOye (N := XN)) (map Fin rs)) /\
    (forall r, Kx r = Kz r * sqrt (1 + m * m) / m) /\
    (forall r, Kz r = r * m * sqrt (1 + m * m) / PI * trapezoid (expansion_integrand m r) 0 PI 1000).
Proof.
  intros PIb m rs hm HR. exists (fun r => r * m * sqrt (1 + m * m) / PI * trapezoid (expansion_integrand m r) 0 PI 1000), (fun r => r * (1 + m * m) / PI * trapezoid (expansion_integrand m r) 0 PI 1000).
  unfold fKzt_gen, fKxit_gen. change (neqb XN (Fin m) (nZ XN 0)) with (Reqb m 0).
  assert (RQ : Reqb m 0 = false) by (apply Reqb_false; auto). rewrite RQ. set (l := rs) in *.
  unfold unit_radii in HR. rewrite Forall_forall in HR.
  assert (EZ : map (Kzt_num_pt (N := XN) (Fin m)) (map Fin l) = map (fun r => Fin (r * m * sqrt (1 + m * m) / PI * trapezoid (expansion_integrand m r) 0 PI 1000)) l).
  { rewrite map_map. apply map_ext_in. intros r Hr. apply Kzt_num_X; auto. }
  assert (EX : map (Kxit_num_pt (N := XN) (Fin m)) (map Fin l) = map (fun r => Fin (r * (1 + m * m) / PI * trapezoid (expansion_integrand m r) 0 PI 1000)) l).
  { rewrite map_map. apply map_ext_in. intros r Hr. apply Kxit_num_X; auto. }
  split; [|split; [|split]].
  - rewrite <- EZ. reflexivity.
  - rewrite <- EX. reflexivity.
  - intros r. assert (S : sqrt (1 + m * m) * sqrt (1 + m * m) = 1 + m * m) by (apply sqrt_sqrt; nra). pose proof PI_RGT_0. rewrite <- S at 1. field. lra.
  - reflexivity.
Qed.
(** C69 (iii): the un-skewed Kxit is the integral of the article *)
Theorem C69_Kxit_straight : forall PIb rs, unit_radii rs -> Forall (fun r => eps_axis < r) rs ->
  exists num oye, fKxit_gen (N := XN) PIb (map Fin rs) (Fin 0) = Ok (map (fun r => Fin (Kxit_exact 0 r)) rs, num, oye).
Proof.
  intros PIb rs HR HE. unfold fKxit_gen, Kxit_gen. change (neqb XN (Fin 0) (nZ XN 0)) with (Reqb 0 0).
  assert (RQ : Reqb 0 0 = true) by (apply Reqb_true; auto). rewrite RQ. set (l := rs) in *.
  unfold unit_radii in HR. rewrite Forall_forall in HR, HE.
  assert (EX : map (Kxit0_pt (N := XN)) (map Fin l) = map (fun r => Fin (Kxit_exact 0 r)) l).
  { rewrite map_map. apply map_ext_in. intros r Hr. rewrite Kxit0_pt_X by auto. assert (Rltb eps_axis r = true) as -> by (apply Rltb_true; auto). reflexivity. }
  rewrite <- EX. eexists. eexists. reflexivity.
Qed.
(** C69 (iv): what the relation between the closed forms really is, for any third-kind routine, and when it holds *)
Theorem C92_relation_iff_partial : forall PIb P, third PIb P -> forall m rs i r, m <> 0 -> unit_radii rs -> nth_error rs i = Some r -> eps_axis < r ->
  exists Kx Kz P1, nth_error (Kxit_gen (N := XN) PIb (Fin m) (map Fin rs)) i = Some (Fin Kx) /\ nth_error (Kzt_gen (N := XN) PIb (Fin m) (map Fin rs)) i = Some (Fin Kz) /\
    P (- b1R r m) (j2R r) P1 /\ Kx = Kz * sqrt (1 + m * m) / m + Kxit_defect m r P1 /\ (Kx = Kz * sqrt (1 + m * m) / m <-> b1R r m = 1 \/ P1 = 0).
Proof.
  intros PIb P HP m rs i r hm HR Hi he. destruct (gens PIb P m rs HP HR hm) as (qs & HQ & EZ & EX).
  assert (hr : 0 < r < 1). { unfold unit_radii in HR. rewrite Forall_forall in HR. apply HR. eapply nth_error_In; eauto. }
  assert (exists q, nth_error qs i = Some q) as [q Hq].
  { clear - HQ Hi. revert i Hi. induction HQ as [|a b l l' _ _ IH]; intros [|i] Hi; cbn in *; try discriminate; eauto. }
  pose proof (Forall2_nth _ _ _ _ _ _ HQ Hi Hq) as [A _].
  exists (KxitR m r (fst q) (snd q)), (KztR m r (fst q) (snd q)), (fst q).
  assert (N2 : forall (f : R -> R * R -> R), nth_error (map2 f rs qs) i = Some (f r q)).
  { intros f. clear - Hi Hq. revert qs i Hi Hq. induction rs as [|a l IH]; intros [|b l'] [|i] Hi Hq; cbn in *; try discriminate; [congruence|eauto]. }
  split; [rewrite EX; rewrite nth_error_map, N2; cbn [option_map]; assert (Rltb eps_axis r = true) as -> by (apply Rltb_true; auto); reflexivity|].
  split; [rewrite EZ; rewrite nth_error_map, N2; reflexivity|]. split; [exact A|]. split; [apply KxitR_defect; auto|].
  rewrite <- (defect_zero m r (fst q)) by auto. rewrite KxitR_defect by auto. split; intros H; lra.
Qed.
(** C69: with exact elliptic integrals the relation fails at every (r,m) but those with b1 = 1; e.g. at r = 1/2, m = 2 *)
Theorem C92_relation_refuted : forall PIb, third PIb exact3 -> 
  exists r m Kx Kz, 0 < r < 1 /\ 0 < m /\ Kxit_gen (N := XN) PIb (Fin m) [Fin r] = [Fin Kx] /\ Kzt_gen (N := XN) PIb (Fin m) [Fin r] = [Fin Kz] /\ Kx <> Kz * sqrt (1 + m * m) / m.
Proof.
  intros PIb HP. assert (HR : unit_radii [1 / 2]) by (constructor; [lra|constructor]).
  destruct (C92_relation_iff_partial PIb exact3 HP 2 [1/2] 0 (1/2) ltac:(lra) HR eq_refl ltac:(unfold eps_axis; lra)) as (Kx & Kz & P1 & EX & EZ & HP1 & _ & IFF).
  destruct (gens PIb exact3 2 [1/2] HP HR ltac:(lra)) as (qs & HQ & GZ & GX). inversion HQ as [|a q l l' _ HN]; subst. inversion HN; subst. cbn [map map2] in *.
  exists (1/2), 2, Kx, Kz. split; [lra|]. split; [lra|]. rewrite GX in EX |- *. rewrite GZ in EZ |- *. cbn in EX, EZ. split; [congruence|]. split; [congruence|].
  rewrite IFF. destruct (coef_sign (1/2) 2 ltac:(lra) ltac:(lra)) as (B & _ & J). intros [E|E].
  - unfold b1R, m1R in E. assert (2 < sqrt (1 + 2 * 2)) by (rewrite <- (sqrt_square 2) at 1 by lra; apply sqrt_lt_1_alt; lra).
    assert (2 < sqrt (1 / 2 * (1 / 2) + 2 * 2)) by (rewrite <- (sqrt_square 2) at 1 by lra; apply sqrt_lt_1_alt; lra).
    set (s := (sqrt (1 + 2 * 2) + sqrt (1 / 2 * (1 / 2) + 2 * 2)) / (1 + 1 / 2)) in *. assert (2 < s) by (unfold s; apply Rlt_div_r; lra). nra.
  - unfold exact3 in HP1. pose proof (Piell_pos (- b1R (1/2) 2) (j2R (1/2)) ltac:(lra) ltac:(lra)). lra.
Qed.
(** C69: the documented further outputs of fKzt do not exist: nout > 3 always raises *)
Theorem C92_more_outputs_refuted : forall (N : Num) PIb (rs : list N) m nout, (3 < nout)%nat -> neqb N m (nZ N 0) = false -> rs <> [] ->
  fKzt_gen PIb rs m nout = Err (ENameError "chi").
Proof.
  intros N PIb rs m nout hn hm hrs. unfold fKzt_gen. rewrite hm. destruct rs; [congruence|]. assert (Nat.leb nout 3 = false) as -> by (apply Nat.leb_gt; lia). reflexivity.
Qed.
Theorem C69_Kzt_unskewed_raises : forall (N : Num) PIb (rs : list N) m nout, neqb N m (nZ N 0) = true -> fKzt_gen PIb rs m nout = Err (EException "Not intended for m==0").
Proof. intros N PIb rs m nout hm. unfold fKzt_gen. rewrite hm. reflexivity. Qed.
Example C69_case : unit_radii [1/2; 1/4] /\ third PIexact exact3.
Proof. split; [repeat constructor; lra|apply C54_exact_exists]. Qed.
