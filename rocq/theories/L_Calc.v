(** * Calculus lemmas: improper integrals, polar angle *)
From Coquelicot Require Import Coquelicot.
From Coq Require Import Reals Lra Psatz.
From Verif Require Import NumR Spec SpecBS.
Local Open Scope R_scope.

Lemma Rsq_pos a : 0 <= a * a.
Proof. apply Rle_0_sqr. Qed.
Lemma Rsq_lt a : a <> 0 -> 0 < a * a.
Proof. apply Rsqr_pos_lt. Qed.

(** fundamental theorem on a half line *)
Lemma improper_antideriv (f F : R -> R) (a l : R) :
  (forall x, a <= x -> is_derive F x (f x)) -> (forall x, a <= x -> continuous f x) ->
  is_lim F p_infty l -> is_RInt_gen f (at_point a) (Rbar_locally p_infty) (l - F a).
Proof.
  intros HD HC HL P [eps HP].
  apply is_lim_spec in HL. destruct (HL eps) as [M HM].
  apply Filter_prod with (Q := fun x => x = a) (R := fun b => Rmax M a < b).
  - reflexivity.
  - exists (Rmax M a). auto.
  - intros x b -> Hb. exists (F b - F a). cbn [fst snd].
    pose proof (Rmax_l M a). pose proof (Rmax_r M a). split.
    + apply (is_RInt_derive F f).
      * intros x Hx. apply HD. rewrite Rmin_left in Hx by lra. lra.
      * intros x Hx. apply HC. rewrite Rmin_left in Hx by lra. lra.
    + apply HP. unfold ball; cbn; unfold AbsRing_ball, abs, minus, plus, opp; cbn.
      specialize (HM b ltac:(lra)). replace (F b - F a + - (l - F a)) with (F b - l) by ring. exact HM.
Qed.

Lemma Ratan2_cos y x : x * x + y * y <> 0 -> cos (Ratan2 y x) = x / sqrt (x * x + y * y).
Proof.
  intros H. unfold Ratan2. destruct (Req_EM_T _ 0); [contradiction|].
  pose proof (Rsq_pos x). pose proof (Rsq_pos y).
  set (s := sqrt (x * x + y * y)). assert (Hs : 0 < s) by (apply sqrt_lt_R0; lra).
  assert (Es : s * s = x * x + y * y) by (apply sqrt_sqrt; lra).
  assert (B : -1 <= x / s <= 1).
  { assert (Rabs x <= s). { unfold s. rewrite <- (sqrt_Rsqr_abs x). apply sqrt_le_1; unfold Rsqr; lra. }
    assert (- s <= x <= s) by (unfold Rabs in *; destruct (Rcase_abs x); lra).
    split; apply (Rmult_le_reg_r s); auto; unfold Rdiv; rewrite Rmult_assoc, Rinv_l by lra; lra. }
  destruct (Rlt_dec y 0); rewrite ?cos_neg; apply cos_acos; auto.
Qed.
Lemma Ratan2_sin y x : x * x + y * y <> 0 -> sin (Ratan2 y x) = y / sqrt (x * x + y * y).
Proof.
  intros H. pose proof (Ratan2_cos y x H) as HC. revert HC. unfold Ratan2. destruct (Req_EM_T _ 0); [contradiction|].
  pose proof (Rsq_pos x). pose proof (Rsq_pos y).
  set (s := sqrt (x * x + y * y)). assert (Hs : 0 < s) by (apply sqrt_lt_R0; lra).
  assert (Es : s * s = x * x + y * y) by (apply sqrt_sqrt; lra).
  pose proof (acos_bound (x / s)) as AB.
  assert (S0 : 0 <= sin (acos (x / s))) by (apply sin_ge_0; lra).
  assert (K : cos (acos (x / s)) = x / s -> sin (acos (x / s)) = Rabs y / s).
  { intros HC. pose proof (sin2_cos2 (acos (x / s))) as P. unfold Rsqr in P. rewrite HC in P.
    assert (0 <= Rabs y / s) by (apply Rdiv_le_0_compat; auto; apply Rabs_pos).
    assert (Rabs y * Rabs y = y * y) by (rewrite <- Rabs_mult; apply Rabs_right; lra).
    apply Rsqr_inj; auto. unfold Rsqr.
    replace (Rabs y / s * (Rabs y / s)) with (Rabs y * Rabs y / (s * s)) by (field; lra). rewrite H3, Es.
    assert (x / s * (x / s) = x * x / (x * x + y * y)) by (rewrite <- Es; field; lra).
    rewrite H4 in P. assert (x * x / (x * x + y * y) + y * y / (x * x + y * y) = 1) by (field; auto). lra. }
  destruct (Rlt_dec y 0) as [Hy|Hy]; rewrite ?cos_neg, ?sin_neg; intros HC; rewrite (K HC).
  - rewrite Rabs_left by auto. field. lra.
  - rewrite Rabs_right by lra. reflexivity.
Qed.
Lemma Ratan2_polar y x : x * x + y * y <> 0 ->
  sqrt (x * x + y * y) * cos (Ratan2 y x) = x /\ sqrt (x * x + y * y) * sin (Ratan2 y x) = y.
Proof.
  intros H. rewrite Ratan2_cos, Ratan2_sin by auto. pose proof (Rsq_pos x). pose proof (Rsq_pos y).
  assert (0 < sqrt (x * x + y * y)) by (apply sqrt_lt_R0; lra). split; field; lra.
Qed.
(** also on the axis, where the radius is 0 *)
Lemma Ratan2_polar_all y x :
  sqrt (x * x + y * y) * cos (Ratan2 y x) = x /\ sqrt (x * x + y * y) * sin (Ratan2 y x) = y.
Proof.
  destruct (Req_dec (x * x + y * y) 0) as [E|E]; [|apply Ratan2_polar; auto].
  pose proof (Rsq_pos x). pose proof (Rsq_pos y). rewrite E, sqrt_0.
  assert (x * x = 0) by lra. assert (y * y = 0) by lra.
  destruct (Rmult_integral _ _ H1), (Rmult_integral _ _ H2); subst; split; ring.
Qed.

(** limits at +infinity by comparison with 1/s *)
Lemma lim_inv_p k : is_lim (fun s => k / s) p_infty 0.
Proof.
  apply is_lim_ext with (fun s => k * / s); [reflexivity|].
  replace (Finite 0) with (Rbar_mult k 0) by (cbn; f_equal; ring).
  apply is_lim_scal_l. replace (Finite 0) with (Rbar_inv p_infty) by reflexivity.
  apply is_lim_inv; [apply is_lim_id|discriminate].
Qed.

(** q(s) = a2 - 2 b s + s^2, positive *)
Section Half.
  Variables a2 b : R.
  Hypothesis D : 0 < a2 - b * b.
  Let q s := a2 - 2 * b * s + s * s.
  Lemma q_pos s : 0 < q s.
  Proof. unfold q. replace (a2 - 2 * b * s + s * s) with ((a2 - b * b) + (s - b) * (s - b)) by ring. pose proof (Rsq_pos (s - b)). lra. Qed.
  Lemma F_lim : is_lim (fun s => (s - b) / sqrt (q s)) p_infty 1.
  Proof.
    (* (s-b)/sqrt q = 1/sqrt(1 + D/(s-b)^2) for s > b *)
    apply is_lim_ext_loc with (fun s => / sqrt (1 + (a2 - b * b) / (s - b) * / (s - b))).
    - exists b. intros s Hs.
      assert (E : q s = (s - b) * (s - b) * (1 + (a2 - b * b) / (s - b) * / (s - b))) by (unfold q; field; lra).
      assert (0 < 1 + (a2 - b * b) / (s - b) * / (s - b)).
      { assert (0 < (a2 - b * b) / (s - b) * / (s - b)); [|lra].
        apply Rmult_lt_0_compat; [apply Rdiv_lt_0_compat|apply Rinv_0_lt_compat]; lra. }
      rewrite E, sqrt_mult, sqrt_square by (try apply Rsq_pos; lra).
      assert (0 < sqrt (1 + (a2 - b * b) / (s - b) * / (s - b))) by (apply sqrt_lt_R0; lra).
      field. split; lra.
    - assert (L : is_lim (fun s => 1 + (a2 - b * b) / (s - b) * / (s - b)) p_infty 1).
      { replace (Finite 1) with (Rbar_plus 1 (Rbar_mult 0 0)) by (cbn; f_equal; ring).
        assert (Lb : is_lim (fun s => s - b) p_infty p_infty).
        { apply (is_lim_minus _ _ _ p_infty b); [apply is_lim_id|apply is_lim_const|reflexivity]. }
        apply (is_lim_plus _ _ _ 1 (Rbar_mult 0 0)); [apply is_lim_const| |reflexivity].
        apply is_lim_mult; [| |reflexivity].
        - apply (is_lim_comp (fun y => (a2 - b * b) / y) (fun s => s - b) p_infty 0 p_infty); auto.
          + apply lim_inv_p.
          + exists 0. intros; discriminate.
        - apply (is_lim_comp (fun y => / y) (fun s => s - b) p_infty 0 p_infty); auto.
          + apply is_lim_ext with (fun s => 1 / s); [intros; unfold Rdiv; ring|apply lim_inv_p].
          + exists 0. intros; discriminate. }
      replace (Finite 1) with (Finite (/ sqrt 1)) by (rewrite sqrt_1; f_equal; field).
      apply (is_lim_comp_continuous (fun s => 1 + (a2 - b * b) / (s - b) * / (s - b)) (fun y => / sqrt y) p_infty 1); auto.
      apply (ex_derive_continuous (fun y => / sqrt y)). auto_derive. rewrite sqrt_1. lra.
  Qed.
  Lemma half_integral : is_RInt_gen (fun s => / (q s * sqrt (q s))) (at_point 0) (Rbar_locally p_infty)
     ((1 + b / sqrt a2) / (a2 - b * b)).
  Proof.
    replace ((1 + b / sqrt a2) / (a2 - b * b)) with (1 / (a2 - b * b) - (0 - b) / sqrt (q 0) / (a2 - b * b)).
    2: { assert (0 < sqrt a2) by (apply sqrt_lt_R0; pose proof (Rsq_pos b); lra).
         unfold q. replace (a2 - 2 * b * 0 + 0 * 0) with a2 by ring. field. split; lra. }
    apply (improper_antideriv _ (fun s => (s - b) / sqrt (q s) / (a2 - b * b))).
    - intros s _. pose proof (q_pos s) as Q. assert (0 < sqrt (q s)) by (apply sqrt_lt_R0; auto).
      assert (Es : sqrt (q s) * sqrt (q s) = q s) by (apply sqrt_sqrt; lra).
      unfold q in *. auto_derive; change (a2 + - (2 * b * s) + s * s) with (a2 - 2 * b * s + s * s); [repeat split; lra|].
      set (w := sqrt (a2 - 2 * b * s + s * s)) in *. rewrite <- Es.
      replace ((a2 - b * b)) with (w * w - (s - b) * (s - b)) by (rewrite Es; ring).
      assert (w * w - (s - b) * (s - b) <> 0) by (rewrite Es; replace (a2 - 2 * b * s + s * s - (s - b) * (s - b)) with (a2 - b * b) by ring; lra).
      field. split; [lra|auto].
    - intros s _. pose proof (q_pos s) as Q. assert (0 < sqrt (q s)) by (apply sqrt_lt_R0; auto).
      apply (ex_derive_continuous (fun s => / (q s * sqrt (q s)))). unfold q in *. auto_derive; change (a2 + - (2 * b * s) + s * s) with (a2 - 2 * b * s + s * s).
      split; [auto|]. split; [|auto]. apply Rgt_not_eq, Rmult_lt_0_compat; auto.
    - replace (Finite (1 / (a2 - b * b))) with (Rbar_mult 1 (Finite (/ (a2 - b * b)))) by (cbn; f_equal; field; lra).
      apply (is_lim_scal_r (fun s => (s - b) / sqrt (q s)) (/ (a2 - b * b))). apply F_lim.
  Qed.
End Half.
